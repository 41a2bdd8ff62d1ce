(** Model of the arguments of the heuristics: src/SearchEngine.cpp 48-98 (parsing) and 280-406 (options and the table of heuristics).
    Simplifications: characters are those of [string], white space is that of the "C" locale; output is left out; exit(1) and return 1 are [None];
    a map is the list of its assignments, the latest first. The heuristics themselves are not built here, only their options. *)
From Coq Require Import Ascii String DecimalString.
From Verif Require Import Base.
Local Open Scope string_scope.

Definition is_space (c : ascii) : bool := let n := nat_of_ascii c in Nat.eqb n 32 || (Nat.leb 9 n && Nat.leb n 13).
(** SearchEngine.cpp 48-57: words are pushed until the stream is at its end; without a further word the empty string is pushed. [cur]: the characters of the current word *)
Fixpoint words (cur s : string) : list string :=
  match s with
  | "" => [cur]
  | String c r => if is_space c then match cur with "" => words "" r | _ => cur :: words "" r end else words (cur ++ String c "") r
  end.
(** std::replace *)
Fixpoint replace_char (a b : ascii) (s : string) : string := match s with "" => "" | String c r => String (if Ascii.eqb c a then b else c) (replace_char a b r) end.
(** SearchEngine.cpp 67-72: the name, and what follows the brace *)
Fixpoint upto_brace (s : string) : string * option string :=
  match s with
  | "" => ("", None)
  | String c r => if Ascii.eqb c "(" then ("", Some r) else let '(h, o) := upto_brace r in (String c h, o)
  end.
(** SearchEngine.cpp 77: all but the last character; nothing is left of the empty string (the length wraps to npos) *)
Fixpoint drop_last (s : string) : string := match s with "" => "" | String c "" => "" | String c r => String c (drop_last r) end.
(** std::to_string *)
Definition to_string (n : nat) : string := NilZero.string_of_uint (Nat.to_uint n).
Definition args := list (string * string).
(** SearchEngine.cpp 81-94 *)
Fixpoint assign (position : nat) (l : list string) (m : args) : option args :=
  match l with
  | [] => Some m
  | a :: l' =>
      match words "" (replace_char "=" " " a) with
      | [v] => assign (S position) l' (("arg" ++ to_string position, v) :: m)
      | [k; v] => assign (S position) l' ((k, v) :: m)
      | _ => None
      end
  end.
(** SearchEngine.cpp 66-98 *)
Definition parse (s : string) : option (string * args) :=
  let '(h, o) := upto_brace s in
  match o with
  | None => Some (h, [])
  | Some r => m <- assign 1 (words "" (replace_char ";" " " (drop_last r))) [] ;; Some (h, m)
  end.

(** map::count and map::operator[] *)
Fixpoint find (m : args) (k : string) : option string := match m with [] => None | (k', v) :: m' => if String.eqb k k' then Some v else find m' k end.
Definition value (m : args) (k : string) : string := match find m k with Some v => v | None => "" end.
(** SearchEngine.cpp 302, 320, 351 and others: by key, otherwise by position *)
Definition arg (m : args) (k : string) (i : nat) : string := match find m k with Some v => v | None => value m ("arg" ++ to_string i) end.

(** SearchEngine.cpp 302-304, 308-310, 314-316 *)
Definition inverted (m : args) : bool := let v := arg m "invert" 1 in String.eqb v "true" || String.eqb v "invert".
Inductive inner := LmCut | Add | FF | Filter.
Inductive estimate := Distance | Costs | Mixed.
Record rc_options := { c_inner : inner; c_est : estimate; c_count : bool }.
(** SearchEngine.cpp 320-348 *)
Definition rc2_options (m : args) : rc_options :=
  let h := arg m "h" 1 in
  let e := arg m "est" 2 in
  {| c_inner := if String.eqb h "lmc" then LmCut else if String.eqb h "add" then Add else if String.eqb h "ff" then FF else if String.eqb h "filter" then Filter else FF;
     c_est := if String.eqb e "mixed" then Mixed else if String.eqb e "cost" then Costs else Distance;
     c_count := negb (String.eqb (arg m "taskcount" 3) "no") |}.
Inductive tdg_opt := TdgAllowUC | TdgFull | TdgNone.
Inductive pg_opt := PgNone | PgFull | PgRelaxed.
Inductive lm_opt := LmsNone | LmsFull | LmsTnI.
Record dof_options := { d_lp : bool; d_optimal : bool; d_tdg : tdg_opt; d_pg : pg_opt; d_lms : lm_opt; d_ext : bool; d_lmc : bool; d_net : bool }.
(** SearchEngine.cpp 351-401 *)
Definition dof_options_of (m : args) : dof_options :=
  let tdg := arg m "tdg" 3 in
  let pg := arg m "pg" 4 in
  let lm := arg m "andOrLM" 5 in
  {| d_lp := String.eqb (arg m "type" 1) "lp"; d_optimal := String.eqb (arg m "mode" 2) "optimal";
     d_tdg := if String.eqb tdg "uc" then TdgFull else if String.eqb tdg "none" then TdgNone else TdgAllowUC;
     d_pg := if String.eqb pg "full" then PgFull else if String.eqb tdg "relaxed" then PgRelaxed else PgNone;
     d_lms := if String.eqb lm "full" then LmsFull else if String.eqb lm "onlyTNi" then LmsTnI else LmsNone;
     d_ext := String.eqb (arg m "externalLM" 6) "none"; d_lmc := negb (String.eqb (arg m "lmclmc" 7) "none"); d_net := negb (String.eqb (arg m "netchange" 8) "none") |}.

(** Equality of maps *)
Definition map_eqb (m n : args) : bool :=
  let same k := match find m k, find n k with Some v, Some w => String.eqb v w | None, None => true | _, _ => false end in
  forallb same (map fst m) && forallb same (map fst n).
Definition spec_eqb (x y : string * args) : bool := String.eqb (fst x) (fst y) && map_eqb (snd x) (snd y).
(** heuristics_so_far: the latest first *)
Fixpoint seen (so_far : list ((string * args) * nat)) (x : string * args) : option nat :=
  match so_far with [] => None | (y, j) :: l => if spec_eqb x y then Some j else seen l x end.
Definition known (h : string) : bool := existsb (String.eqb h) ["zero"; "modDepth"; "mixedModDepth"; "cost"; "rc2"; "dof"].
(** SearchEngine.cpp 288-409, compiled with CPLEX: the table [heuristics]; its entries are the numbers of the heuristics for which the objects were created *)
Fixpoint build (specs : list string) (so_far : list ((string * args) * nat)) (heuristics : list nat) : option (list nat) :=
  match specs with
  | [] => Some heuristics
  | s :: l =>
      x <- parse s ;;
      let i := length heuristics in
      match seen so_far x with
      | Some j => o <- get heuristics j ;; build l so_far (heuristics ++ [o])%list
      | None => if known (fst x) then build l ((x, i) :: so_far) (heuristics ++ [i])%list else None
      end
  end.
