(** Model of src/intDataStructures/CompressedSequenceSet.cpp, src/intDataStructures/SequenceSetCommon.h and of the packing of bit vectors
    in src/VisitedList.cpp (state2Int).
    Simplifications: 64-bit words are binary natural numbers; the 16-bit fields of a node (blocks, first block, ignored bits) are natural
    numbers without overflow; freeing memory is left out. A shift by 64 bits or more is undefined behaviour ([None]), and so is a violated
    assert. *)
From Coq Require Import NArith.
From Verif Require Import Base.

(** SequenceSetCommon.h 6-8 *)
Definition ignore_first (b : nat) : option N :=
  if Nat.ltb b 64 then Some (N.ldiff (N.ones 64) (N.ones (N.of_nat b))) else None.

(** SequenceSetCommon.h 10-13 *)
Definition ignore_last (b : nat) : option N :=
  if Nat.eqb b 0 then Some (N.ones 64)
  else if Nat.leb b 64 then Some (N.ones (N.of_nat (64 - b))) else None.

(** SequenceSetCommon.h 15-17 *)
Definition bit_mask (b : nat) : option N :=
  if Nat.ltb b 64 then Some (N.shiftl 1 (N.of_nat b)) else None.

(** VisitedList.cpp 27-51: state2Int; [pos] and [cur] are the local variables. The result is the vector and the padding. *)
Fixpoint state2Int_loop (st : list bool) (pos : nat) (cur : N) : list N * nat :=
  match st with
  | [] => match pos with 0 => ([], 0) | _ => ([cur], 64 - pos) end
  | b :: r =>
      let cur := if b then N.lor cur (N.shiftl 1 (N.of_nat pos)) else cur in
      if Nat.eqb (S pos) 64 then let '(v, p) := state2Int_loop r 0 0%N in (cur :: v, p)
      else state2Int_loop r (S pos) cur
  end.
Definition state2Int (st : list bool) : list N * nat := state2Int_loop st 0 0%N.

(** CompressedSequenceSet.h 10-19. [TNil] is the null pointer, the payload [None] is nullptr. *)
Inductive trie (A : Type) :=
| TNil
| TNode (payload : option A) (blocks first igf igl : nat) (value : list N) (zero one : trie A).
Arguments TNil {A}. Arguments TNode {A}.

Section Trie.
  Context {A : Type}.
  (** The callers read and overwrite the payload that the returned pointer p leads to; this access [acc], from the old to the new
      payload, is carried out where p is assigned, and the old payload is returned. *)
  Variable acc : option A -> option A.

  (** CompressedSequenceSet.cpp 58-70 *)
  Definition t_new (seq : list N) (pad : nat) : trie A :=
    TNode (acc None) (length seq) 0 0 pad seq TNil TNil.

  (** CompressedSequenceSet.cpp 86, 101, 130: masking the first or the last word of an array. *)
  Definition mask_at (i : nat) (m : N) (v : list N) : option (list N) :=
    x <- get v i ;; set v i (N.land x m).

  (** CompressedSequenceSet.cpp 73-87 *)
  Definition t_sub (seq : list N) (sb bit pad : nat) : option (trie A) :=
    m <- ignore_first bit ;;
    v <- mask_at 0 m (skipn sb seq) ;;
    Some (TNode (acc None) (length seq - sb) sb bit pad v TNil TNil).

  (** CompressedSequenceSet.cpp 89-136: the result are the new fields of the node (payload 0, blocks, ignoreBitsLast, value, zero, one). *)
  Definition split_at (pay : option A) (blocks first igl : nat) (value : list N) (zero one : trie A) (block bit : nat) :
    option (nat * nat * list N * trie A * trie A) :=
    if Nat.ltb block blocks then
      m <- ignore_first bit ;;
      cv <- mask_at 0 m (skipn block value) ;;
      let child := TNode pay (blocks - block) (first + block) bit igl cv zero one in
      x <- get cv 0 ;;
      b <- bit_mask bit ;;
      let igl' := if Nat.eqb (64 - bit) 64 then 0 else 64 - bit in
      let blocks' := if Nat.eqb bit 0 then block else S block in
      v' <- (if Nat.eqb blocks' 0 then Some value
             else ml <- ignore_last igl' ;; mask_at (blocks' - 1) ml (firstn blocks' value)) ;;
      if N.eqb (N.land x b) 0 then Some (blocks', igl', v', child, TNil) else Some (blocks', igl', v', TNil, child)
    else None.

  (** CompressedSequenceSet.cpp 145-163: the loop from block [i] on; [Some None] is -1. *)
  Fixpoint first_diff (k i blocks first igf igl : nat) (value seq : list N) (pad : nat) : option (option nat) :=
    match k with
    | 0 => Some None
    | S k' =>
        if Nat.leb (length seq) (first + i) then Some None
        else
          x0 <- get seq (first + i) ;;
          mf <- ignore_first igf ;;
          let x1 := if Nat.eqb i 0 then N.land x0 mf else x0 in
          ml <- ignore_last igl ;;
          let x2 := if Nat.eqb i (blocks - 1) then N.land x1 ml else x1 in
          y0 <- get value i ;;
          mp <- ignore_last pad ;;
          let y1 := if Nat.eqb (first + i) (length seq - 1) then N.land y0 mp else y0 in
          if N.eqb x2 y1 then first_diff k' (S i) blocks first igf igl value seq pad else Some (Some i)
    end.

  (** CompressedSequenceSet.cpp 257-261: the first position, from [j] on, where two words differ; if there is none splitBit stays -1,
      with which bits are shifted then. *)
  Fixpoint diff_bit (k j : nat) (x y : N) : option nat :=
    match k with
    | 0 => None
    | S k' => if Bool.eqb (N.testbit x (N.of_nat j)) (N.testbit y (N.of_nat j)) then diff_bit k' (S j) x y else Some j
    end.

  (** CompressedSequenceSet.cpp 139-282 *)
  Fixpoint t_insert (t : trie A) (seq : list N) (pad : nat) : option (trie A * option A) :=
    match t with
    | TNil => None
    | TNode pay blocks first igf igl value zero one =>
        let n := length seq in
        (* 141: the padding bits must be zero *)
        last <- get seq (n - 1) ;;
        mp <- ignore_last pad ;;
        if negb (N.eqb (N.ldiff last mp) 0) then None else
        d <- first_diff blocks 0 blocks first igf igl value seq pad ;;
        match d with
        | None =>
            if Nat.eqb (first + blocks) n then
              if Nat.eqb igl pad then
                Some (TNode (acc pay) blocks first igf igl value zero one, pay)
              else if Nat.ltb pad igl then
                b <- bit_mask (64 - igl) ;;
                if N.eqb (N.land last b) 0 then
                  match zero with
                  | TNil => c <- t_sub seq (n - 1) (64 - igl) pad ;; Some (TNode pay blocks first igf igl value c one, None)
                  | _ => '(c, old) <- t_insert zero seq pad ;; Some (TNode pay blocks first igf igl value c one, old)
                  end
                else
                  match one with
                  | TNil => c <- t_sub seq (n - 1) (64 - igl) pad ;; Some (TNode pay blocks first igf igl value zero c, None)
                  | _ => '(c, old) <- t_insert one seq pad ;; Some (TNode pay blocks first igf igl value zero c, old)
                  end
              else
                '(bl, il, v, z, o) <- split_at pay blocks first igl value zero one (blocks - 1) (64 - pad) ;;
                Some (TNode (acc None) bl first igf il v z o, None)
            else if Nat.ltb (first + blocks) n then
              let next_bit := if Nat.eqb (64 - igl) 64 then 0 else 64 - igl in
              let next_block := first + blocks - (if Nat.eqb next_bit 0 then 0 else 1) in
              x <- get seq next_block ;;
              b <- bit_mask next_bit ;;
              if N.eqb (N.land x b) 0 then
                match zero with
                | TNil => c <- t_sub seq next_block next_bit pad ;; Some (TNode pay blocks first igf igl value c one, None)
                | _ => '(c, old) <- t_insert zero seq pad ;; Some (TNode pay blocks first igf igl value c one, old)
                end
              else
                match one with
                | TNil => c <- t_sub seq next_block next_bit pad ;; Some (TNode pay blocks first igf igl value zero c, None)
                | _ => '(c, old) <- t_insert one seq pad ;; Some (TNode pay blocks first igf igl value zero c, old)
                end
            else
              '(bl, il, v, z, o) <- split_at pay blocks first igl value zero one (n - first - 1) (64 - pad) ;;
              Some (TNode (acc None) bl first igf il v z o, None)
        | Some i =>
            x0 <- get seq (first + i) ;;
            y <- get value i ;;
            mf <- ignore_first igf ;;
            let x := if Nat.eqb i 0 then N.land x0 mf else x0 in
            sb <- diff_bit 64 0 x y ;;
            '(bl, il, v, z, o) <- split_at pay blocks first igl value zero one i sb ;;
            b <- bit_mask sb ;;
            c <- t_sub seq (first + i) sb pad ;;
            if N.eqb (N.land x0 b) 0 then Some (TNode None bl first igf il v c o, None)
            else Some (TNode None bl first igf il v z c, None)
        end
    end.
End Trie.
