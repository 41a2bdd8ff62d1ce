(** The hierarchical plan printed for plans of the encodings for partially ordered problems (HTNToSASTranslation::planToHddl, src/translation/htnToSAS.cpp 2528-2734).

    As in Hddl_model, a line of the plan file is a structured value and the file ends with a line for the costs and an empty line.
    These encodings do not execute leading primitive tasks along with a method: there is no "firstPrim" part, hasPrimIndezes is false. *)
From Verif Require Import Base Htn_problem Sas_model Push_model Hddl_model.

(** A line of the plan: "primitive", "method" (with its "subtasks" part), "move", or anything else (as "emptyTask"), which is skipped. *)
Inductive hline := HPrim (id head : nat) | HMeth (id head : nat) (subs : list nat) | HMove (from to : nat) | HSkip.

(** subHeads and subHeadsFixed of one method *)
Definition cells := list (nat * bool).

(** The first cell that is not fixed and has head [h] is replaced (2604-2610, 2673-2678). *)
Fixpoint change (f : nat * bool) (h : nat) (cs : cells) : option cells :=
  match cs with
  | [] => None
  | (x, b) :: r => if (negb b && (x =? h))%bool then Some (f :: r) else r' <- change f h r ;; Some ((x, b) :: r')
  end.
(** The methods so far, the last one first (2602-2615, 2669-2680) *)
Fixpoint change_last (f : nat * bool) (h : nat) (ms : list cells) : list cells :=
  match ms with
  | [] => []
  | cs :: r => match change f h cs with Some cs' => cs' :: r | None => cs :: change_last f h r end
  end.

Section Out.
  Variable P : problem.
  (** subTasksInOrder *)
  Variable ro : list (list nat).

  (** The loop over the lines (2594-2682): the subHeads of all methods, the last method first. Reading a number from an empty
      "subtasks" part is an exception (2657). *)
  Fixpoint heads_pass (ls : list hline) (ms : list cells) : option (list cells) :=
    match ls with
    | [] => Some ms
    | HPrim _ h :: r => heads_pass r (change_last (h, true) h ms)
    | HMeth i _ subs :: r =>
        m <- get (p_methods P) i ;;
        cs <- match subs, m_subs m with
              | [], _ :: _ => None
              | _, _ => Some (map (fun x => (x, false)) (read_list subs (length (m_subs m))))
              end ;;
        heads_pass r (cs :: ms)
    | HMove a b :: r => heads_pass r (change_last (b, false) a ms)
    | HSkip :: r => heads_pass r ms
    end.

  (** The printed primitive tasks (2616) *)
  Definition out_acts (ls : list hline) : list nat := concat (map (fun l => match l with HPrim i _ => [i] | _ => [] end) ls).

  (** The first line with task [t] and head [x] (2703-2726); [pn] and [mn] are the numbers of primitives and methods before. *)
  Fixpoint out_find (pmax t x pn mn : nat) (ls : list hline) : option (option nat) :=
    match ls with
    | [] => Some None
    | HPrim i h :: r => if ((i =? t) && (h =? x))%bool then Some (Some pn) else out_find pmax t x (S pn) mn r
    | HMeth i h _ :: r =>
        m <- get (p_methods P) i ;;
        if ((t =? m_task m) && (h =? x))%bool then Some (Some (mn + pmax)) else out_find pmax t x pn (S mn) r
    | _ :: r => out_find pmax t x pn mn r
    end.

  (** The decompositions (2684-2730); [hs] are the subHeads of the methods of the lines. *)
  Fixpoint out_rows (pmax : nat) (hs : list cells) (pn mn : nat) (ls : list hline) : option (list hrow) :=
    match ls with
    | [] => Some []
    | HPrim _ _ :: r => out_rows pmax hs (S pn) mn r
    | HMeth i _ _ :: r =>
        match hs with
        | [] => None
        | cs :: hs' =>
            m <- get (p_methods P) i ;;
            s <- get ro i ;;
            kids <- omap (fun j => t <- get s j ;; x <- get cs j ;; out_find pmax t (fst x) pn (S mn) r) (rev (seq 0 (length (m_subs m)))) ;;
            rest <- out_rows pmax hs' pn (S mn) r ;;
            Some ({| hr_id := mn + pmax; hr_task := m_task m; hr_meth := i; hr_kids := kids |} :: rest)
        end
    | _ :: r => out_rows pmax hs pn mn r
    end.
End Out.

(** The output: primitive tasks, root (2683), decompositions. *)
Definition plan_out (P : problem) (ls : list hline) : option (list (nat * nat) * nat * list hrow) :=
  ro <- omap (po_reorder (p_prim P)) (p_methods P) ;;
  ms <- heads_pass P ls [] ;;
  let acts := out_acts ls in
  rs <- out_rows P (map fst ro) (length acts) (rev ms) 0 0 ls ;;
  Some (combine (seq 0 (length acts)) acts, length acts, rs).

(** The lines of the encoding "Push" *)
Definition push_line (n : pname) : hline :=
  match n with QPrim i h => HPrim i h | QMeth i h s => HMeth i h s | QMove _ a b => HMove a b end.
