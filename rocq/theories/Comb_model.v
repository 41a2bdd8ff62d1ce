(** Model of the mathematical helper functions of src/translation/htnToSAS.cpp 12-63. The entries of the array are natural numbers (they
    stay below n + 1); long is the 64-bit type, a product that does not fit is undefined ([None]). *)
From Verif Require Import Base.

(** htnToSAS.cpp 17-26: from the last cell on the cells are increased; [idx] is index + 1. Result: the array and the cell of the break. *)
Fixpoint inc_loop (a : list nat) (idx highest : nat) : option (list nat * option nat) :=
  match idx with
  | O => Some (a, None)
  | S j =>
      v <- get a j ;;
      a' <- set a j (S v) ;;
      if Nat.ltb (S v) highest then Some (a', Some j) else inc_loop a' j (highest - 1)
  end.

(** htnToSAS.cpp 28-31: [todo] further cells are filled; the first one reads array[-1] if there was no break. *)
Fixpoint fill_loop (a : list nat) (idx todo : nat) : option (list nat) :=
  match todo with
  | O => Some a
  | S r =>
      v <- match idx with O => None | S p => get a p end ;;
      a' <- set a idx (S v) ;;
      fill_loop a' (S idx) r
  end.

(** htnToSAS.cpp 16-32: one iteration *)
Definition next_comb (n k : nat) (a : list nat) : option (list nat) :=
  '(a', b) <- inc_loop a k n ;;
  let idx := match b with Some j => S j | None => 0 end in
  fill_loop a' idx (k - idx).

(** htnToSAS.cpp 12-33 *)
Definition combination (n k i : nat) : option (list nat) := ofold (fun a _ => next_comb n k a) (seq 0 i) (seq 0 k).

Local Open Scope Z_scope.
Definition long_max : Z := 9223372036854775807.
Definition int_max : Z := 2147483647.

(** htnToSAS.cpp 43-45 *)
Definition bin_loop (n : Z) (k : nat) : option Z :=
  ofold (fun b i => let p := b * (n - Z.of_nat i + 1) in if p <=? long_max then Some (p / Z.of_nat i) else None) (seq 1 k) 1.

(** htnToSAS.cpp 35-50 *)
Definition bin (n k : Z) : option Z :=
  if (n <? 0) || (k <? 0) || (n <? k) then Some (-1)
  else if (k =? 0) || (k =? n) then Some 1
  else b <- bin_loop n (Z.to_nat k) ;; Some (if int_max <? b then int_max else b).

(** htnToSAS.cpp 52-63; an overflow of the product is undefined. *)
Definition power (n p : Z) : option Z :=
  if n =? 0 then Some 0 else if p =? 0 then Some 1
  else ofold (fun i _ => let q := i * n in if (- int_max - 1 <=? q) && (q <=? int_max) then Some q else None) (seq 0 (Z.to_nat p)) 1.
