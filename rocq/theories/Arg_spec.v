(** What the help text of the planner says about the arguments of heuristics, SearchEngine.cpp 119-158: independent of the model. *)
From Coq Require Import Ascii String DecimalString.
From Verif Require Import Base.
Local Open Scope string_scope.

(** An argument is given by its position or by its key. *)
Inductive item := Pos (v : string) | Key (k v : string).
Definition write (i : item) : string := match i with Pos v => v | Key k v => k ++ "=" ++ v end.
Definition written (h : string) (l : list item) : string := h ++ "(" ++ String.concat ";" (map write l) ++ ")".
Fixpoint chars (s : string) : list ascii := match s with "" => [] | String c r => c :: chars r end.
(** Words do not contain white space, separators and equals signs. *)
Definition plain (c : ascii) : Prop := let n := nat_of_ascii c in ~ (n = 32 \/ 9 <= n <= 13) /\ c <> ";"%char /\ c <> "="%char.
Definition word (s : string) : Prop := s <> "" /\ forall c, In c (chars s) -> plain c.
Definition item_ok (i : item) : Prop := match i with Pos v => word v | Key k v => word k /\ word v end.
(** The name of the argument at position [n], counted from 0 *)
Definition position (n : nat) : string := "arg" ++ NilZero.string_of_uint (Nat.to_uint (S n)).
(** Item [n] of the list gives the value [v] to the name [k]. *)
Definition gives (l : list item) (n : nat) (k v : string) : Prop := nth_error l n = Some (Key k v) \/ nth_error l n = Some (Pos v) /\ k = position n.
(** The value of a name: the last one that is given *)
Definition last_given (l : list item) (k : string) (o : option string) : Prop :=
  match o with
  | Some v => exists n, gives l n k v /\ forall n' v', gives l n' k v' -> n' <= n
  | None => forall n v, ~ gives l n k v
  end.
