(** The input format and what it describes. Independent of the model. *)
From Coq Require Import List Arith ZArith Ascii Sorted.
Import ListNotations.
From Verif Require Import Htn_problem Htn_spec.

(** *** Text *)
Definition digit_char (d : nat) : ascii := nth d ["0"; "1"; "2"; "3"; "4"; "5"; "6"; "7"; "8"; "9"]%char "0"%char.
(** Decimal numerals (leading zeros are allowed) *)
Inductive numeral : list ascii -> nat -> Prop :=
| num_one : forall d, d < 10 -> numeral [digit_char d] d
| num_more : forall s n d, numeral s n -> d < 10 -> numeral (s ++ [digit_char d]) (10 * n + d).
(** Numbers in the range of int *)
Inductive int_text : list ascii -> Z -> Prop :=
| it_pos : forall s n, numeral s n -> (Z.of_nat n <= 2147483647)%Z -> int_text s (Z.of_nat n)
| it_neg : forall s n, numeral s n -> (Z.of_nat n <= 2147483648)%Z -> int_text ("-"%char :: s) (- Z.of_nat n).

Definition blank (c : ascii) : Prop := c = " "%char \/ c = "009"%char.
(** The text begins with the given numbers, separated by blanks. *)
Inductive begins : list ascii -> list Z -> Prop :=
| bg_nil : forall t, begins t []
| bg_cons : forall w s z r l, Forall blank w -> int_text s z -> r = [] \/ (exists c r', r = c :: r' /\ blank c) -> begins r l -> begins (w ++ s ++ r) (z :: l).

(** Lists end with -1; a negative element z is written as z - 1. *)
Definition element (z : Z) : Z := if (z <? 0)%Z then (z - 1)%Z else z.
Definition list_line (t : list ascii) (l : list Z) : Prop := begins t (map element l ++ [-1]%Z).
Definition nat_list_line (t : list ascii) (l : list nat) : Prop := begins t (map Z.of_nat l ++ [-1]%Z).
(** Effects: the number of conditions, the conditions, the fact *)
Definition effect_text (e : list nat * nat) : list Z := Z.of_nat (length (fst e)) :: map Z.of_nat (fst e) ++ [Z.of_nat (snd e)].
Definition effect_line (t : list ascii) (es : list (list nat * nat)) : Prop := begins t (concat (map effect_text es) ++ [-1]%Z).
Definition number_line (t : list ascii) (n : nat) : Prop := begins t [Z.of_nat n].

Definition newline : ascii := "010"%char.
Definition unlines (ls : list (list ascii)) : list ascii := concat (map (fun l => l ++ [newline]) ls).

(** *** Descriptions *)
Record daction := { da_cost : nat; da_prec : list nat; da_add : list (list nat * nat); da_del : list (list nat * nat) }.
Record description := {
  d_nf : nat; d_vars : list (nat * nat); d_strict : list (list Z); d_mutex : list (list Z); d_inv : list (list Z);
  d_acts : list daction; d_s0 : list nat; d_goal : list nat; d_abstract : list bool; d_init : nat; d_methods : list method }.

Definition action_lines (a : daction) (ls : list (list ascii)) : Prop :=
  exists c p e d, ls = [c; p; e; d] /\ number_line c (da_cost a) /\ nat_list_line p (da_prec a) /\ effect_line e (da_add a) /\ effect_line d (da_del a).
Fixpoint flat (l : list (nat * nat)) : list nat := match l with [] => [] | (a, b) :: r => a :: b :: flat r end.
Definition method_lines (m : method) (ls : list (list ascii)) : Prop :=
  exists n t s o, ls = [n; t; s; o] /\ number_line t (m_task m) /\ nat_list_line s (m_subs m) /\ nat_list_line o (flat (m_ord m)).
Definition info_lines (l : list (list Z)) (ls : list (list ascii)) : Prop :=
  exists n r a b, ls = n :: r ++ [a; b] /\ number_line n (length l) /\ Forall2 list_line r l.
(** The lines of a block of items, each of which has its own lines *)
Definition block {A} (item : A -> list (list ascii) -> Prop) (l : list A) (ls : list (list ascii)) : Prop := exists r, Forall2 item l r /\ ls = concat r.

(** The lines of a description: numbers are followed by as many items, the parts are separated by two lines. *)
Definition file_lines (D : description) (ls : list (list ascii)) : Prop :=
  exists h lf facts a1 a2 lv vars b1 b2 i1 i2 i3 la acts c1 c2 s0 c3 c4 g c5 c6 lt tasks c7 lin c8 c9 lm methods,
  ls = [h; lf] ++ facts ++ [a1; a2; lv] ++ vars ++ [b1; b2] ++ i1 ++ i2 ++ i3 ++ [la] ++ acts ++ [c1; c2; s0; c3; c4; g; c5; c6; lt] ++ tasks ++
       [[]; c7; lin; c8; c9; lm] ++ methods /\
  number_line lf (d_nf D) /\ length facts = d_nf D /\
  number_line lv (length (d_vars D)) /\ Forall2 (fun v l => begins l [Z.of_nat (fst v); Z.of_nat (snd v)]) (d_vars D) vars /\
  info_lines (d_strict D) i1 /\ info_lines (d_mutex D) i2 /\ info_lines (d_inv D) i3 /\
  number_line la (length (d_acts D)) /\ block action_lines (d_acts D) acts /\
  nat_list_line s0 (d_s0 D) /\ nat_list_line g (d_goal D) /\
  number_line lt (length (d_abstract D)) /\ Forall2 (fun (b : bool) l => number_line l (if b then 1 else 0)) (d_abstract D) tasks /\
  number_line lin (d_init D) /\ number_line lm (length (d_methods D)) /\ block method_lines (d_methods D) methods.

(** The text of a file with this description; more text may follow. *)
Definition describes (t : list ascii) (D : description) : Prop :=
  exists ls rest, file_lines D ls /\ (forall l, In l ls -> ~ In newline l) /\ t = unlines ls ++ rest.

(** *** Meaning *)
Definition plain (es : list (list nat * nat)) : list nat := map snd (filter (fun e => Nat.eqb (length (fst e)) 0) es).
Definition unconditional (D : description) : Prop := forall a e, In a (d_acts D) -> In e (da_add a ++ da_del a) -> fst e = [].
(** The described planning problem, if there are no conditional effects. *)
Definition described (D : description) : problem :=
  {| p_nfacts := d_nf D; p_prim := map negb (d_abstract D); p_prec := map da_prec (d_acts D); p_add := map (fun a => map snd (da_add a)) (d_acts D);
     p_del := map (fun a => map snd (da_del a)) (d_acts D); p_cost := map da_cost (d_acts D); p_methods := d_methods D; p_init := d_init D;
     p_s0 := d_s0 D; p_goal := d_goal D |}.

Record wf_description (D : description) : Prop := {
  wd_problem : wf_problem (described D);
  wd_vars : forall v, In v (d_vars D) -> snd v < d_nf D }.

(** The result of an action with conditional effects *)
Definition cond_result (a : daction) (s : state) : state :=
  fun f => (exists e, In e (da_add a) /\ snd e = f /\ forall g, In g (fst e) -> s g) \/ (s f /\ ~ exists e, In e (da_del a) /\ snd e = f /\ forall g, In g (fst e) -> s g).

(** Problems with the same meaning *)
Record same_method (m m' : method) : Prop := { sm_task : m_task m = m_task m'; sm_subs : m_subs m = m_subs m'; sm_lt : forall j k, m_lt m j k <-> m_lt m' j k }.

(** What is read: the unconditional effects, each precondition once *)
Record reads (D : description) (P : problem) : Prop := {
  r_nf : p_nfacts P = d_nf D;
  r_prim : p_prim P = map negb (d_abstract D);
  r_prec : Forall2 (fun a l => NoDup l /\ forall f, In f l <-> In f (da_prec a)) (d_acts D) (p_prec P);
  r_add : p_add P = map (fun a => plain (da_add a)) (d_acts D);
  r_del : p_del P = map (fun a => plain (da_del a)) (d_acts D);
  r_cost : p_cost P = map da_cost (d_acts D);
  r_methods : Forall2 same_method (d_methods D) (p_methods P);
  r_init : p_init P = d_init D;
  r_s0 : p_s0 P = d_s0 D;
  r_goal : p_goal P = d_goal D }.

(** The last variable with the fact [j] *)
Definition is_var_of (vars : list (nat * nat)) (j : nat) (o : option nat) : Prop :=
  let has i := exists v, nth_error vars i = Some v /\ fst v <= j <= snd v in
  match o with None => forall i, ~ has i | Some i => has i /\ forall i', has i' -> i' <= i end.
(** [row f]: the indices of the lists with [f], in increasing order *)
Definition rows (nf : nat) (lists : list (list nat)) (T : list (list nat)) : Prop :=
  length T = nf /\ forall f row, nth_error T f = Some row -> Sorted.StronglySorted lt row /\ forall i, In i row <-> exists l, nth_error lists i = Some l /\ In f l.

(** *** Writing a description *)
Fixpoint show (fuel n : nat) : list ascii :=
  match fuel with O => [digit_char n] | S f => if Nat.ltb n 10 then [digit_char n] else show f (n / 10) ++ [digit_char (n mod 10)] end.
Definition show_int (z : Z) : list ascii := if (z <? 0)%Z then "-"%char :: show (Z.to_nat (- z)) (Z.to_nat (- z)) else show (Z.to_nat z) (Z.to_nat z).
Definition line (zs : list Z) : list ascii := concat (map (fun z => " "%char :: show_int z) zs).
Definition nat_list (l : list nat) : list Z := map Z.of_nat l ++ [-1]%Z.
Definition info_numbers (l : list (list Z)) : list (list Z) := [Z.of_nat (length l)] :: map (fun i => map element i ++ [-1]%Z) l ++ [[]; []].
Definition action_numbers (a : daction) : list (list Z) :=
  [[Z.of_nat (da_cost a)]; nat_list (da_prec a); concat (map effect_text (da_add a)) ++ [-1]%Z; concat (map effect_text (da_del a)) ++ [-1]%Z].
Definition method_numbers (m : method) : list (list Z) := [[]; [Z.of_nat (m_task m)]; nat_list (m_subs m); nat_list (flat (m_ord m))].
(** The numbers on each line *)
Definition file_numbers (D : description) : list (list Z) :=
  [[]; [Z.of_nat (d_nf D)]] ++ repeat [] (d_nf D) ++ [[]; []; [Z.of_nat (length (d_vars D))]] ++ map (fun v => [Z.of_nat (fst v); Z.of_nat (snd v)]) (d_vars D) ++ [[]; []] ++
  info_numbers (d_strict D) ++ info_numbers (d_mutex D) ++ info_numbers (d_inv D) ++ [[Z.of_nat (length (d_acts D))]] ++ concat (map action_numbers (d_acts D)) ++
  [[]; []; nat_list (d_s0 D); []; []; nat_list (d_goal D); []; []; [Z.of_nat (length (d_abstract D))]] ++ map (fun b : bool => [if b then 1 else 0]%Z) (d_abstract D) ++
  [[]; []; [Z.of_nat (d_init D)]; []; []; [Z.of_nat (length (d_methods D))]] ++ concat (map method_numbers (d_methods D)).
Definition write (D : description) : list ascii := unlines (map line (file_numbers D)).
(** All numbers are in the range of int. *)
Definition in_range (D : description) : Prop := forall l z, In l (file_numbers D) -> In z l -> (-2147483648 <= z <= 2147483647)%Z.
