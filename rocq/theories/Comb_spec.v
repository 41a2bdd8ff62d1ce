(** Combinations and binomial coefficients. Independent of the model. *)
From Coq Require Import List Arith Sorted.
Import ListNotations.

(** Pascal's triangle *)
Fixpoint binom (n k : nat) : nat :=
  match n, k with
  | _, O => 1
  | O, S _ => 0
  | S n', S k' => binom n' k' + binom n' k
  end.

(** [l] is a set of [k] numbers less than [n], in increasing order. *)
Definition combination_of (n k : nat) (l : list nat) : Prop := length l = k /\ StronglySorted lt l /\ Forall (fun x => x < n) l.

(** Lexicographic order of lists of the same length *)
Inductive lex : list nat -> list nat -> Prop :=
| lex_lt : forall a b l m, a < b -> lex (a :: l) (b :: m)
| lex_eq : forall a l m, lex l m -> lex (a :: l) (a :: m).
