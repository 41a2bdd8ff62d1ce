(** Propositional semantics, independent of the encoder. *)
From Coq Require Import List ZArith.
Import ListNotations.

(** An assignment maps the (positive) variables to truth values; a negative number stands for the negated variable. *)
Definition assignment := Z -> bool.
Definition lit_true (v : assignment) (l : Z) : bool := if (l <? 0)%Z then negb (v (- l)%Z) else v l.
Definition satisfies (v : assignment) (F : list (list Z)) : Prop := forall c, In c F -> exists l, In l c /\ lit_true v l = true.

(** How many of the literals are true. *)
Definition count_true (v : assignment) (ls : list Z) : nat := length (filter (lit_true v) ls).

(** Two assignments agree on the variables 1, ..., n. *)
Definition agree (n : Z) (v v' : assignment) : Prop := forall x, (1 <= x <= n)%Z -> v x = v' x.

(** A formula over the variables 1, ..., m expresses the condition [B] on the variables 1, ..., n: its models satisfy [B], and every assignment
    satisfying [B] becomes a model by changing only the variables n + 1, ..., m. *)
Definition expresses (n m : Z) (F : list (list Z)) (B : assignment -> Prop) : Prop :=
  (forall v, satisfies v F -> B v) /\
  (forall v, B v -> exists v', (forall x, (x <= n \/ m < x)%Z -> v' x = v x) /\ satisfies v' F).
