(** C27: IntStack and FlexIntStack are stacks. *)
From Verif Require Import Base Arr IntSet_model NoDel_proof.
Local Open Scope Z_scope.

(** Contents, the top being the last element. *)
Definition content (s : stack) : list Z := firstn (scur s) (si s).

Inductive st_op := SPush (i : Z) | SPop | SClear.

(** One call: the returned value (0 when nothing is returned) and the new stack. [flex] selects FlexIntStack::push. *)
Definition st_step (flex : option (nat -> list Z)) (s : stack) (o : st_op) : option (Z * stack) :=
  match o with
  | SPush i => s' <- (match flex with Some al => fst_push al s i | None => st_push s i end) ;; Some (0, s')
  | SPop => st_pop s
  | SClear => Some (0, st_clear s)
  end.

Fixpoint st_run (flex : option (nat -> list Z)) (s : stack) (l : list st_op) : option (list Z * stack) :=
  match l with
  | [] => Some ([], s)
  | o :: r => '(v, s') <- st_step flex s o ;; '(vs, s2) <- st_run flex s' r ;; Some (v :: vs, s2)
  end.

(** Specification: a list whose head is the top. *)
Definition lifo_step (l : list Z) (o : st_op) : Z * list Z :=
  match o with
  | SPush i => (0, i :: l)
  | SPop => match l with [] => (-1, []) | x :: r => (x, r) end
  | SClear => (0, [])
  end.
Fixpoint lifo_run (l : list Z) (ops : list st_op) : list Z * list Z :=
  match ops with
  | [] => ([], l)
  | o :: r => let '(v, l') := lifo_step l o in let '(vs, l2) := lifo_run l' r in (v :: vs, l2)
  end.

(** Largest number of elements ever on the stack. *)
Fixpoint peak (l : list Z) (ops : list st_op) : nat :=
  match ops with
  | [] => length l
  | o :: r => Nat.max (length l) (peak (snd (lifo_step l o)) r)
  end.

Definition SInv (s : stack) : Prop := (scur s <= length (si s))%nat.

Lemma pop_ok s : SInv s -> exists s', st_pop s = Some (fst (lifo_step (rev (content s)) SPop), s') /\ SInv s' /\
  rev (content s') = snd (lifo_step (rev (content s)) SPop) /\ length (si s') = length (si s).
Proof.
  intros I. unfold st_pop, content. destruct (scur s) as [|n] eqn:E.
  - exists s. simpl. split; [auto|]. split; [auto|]. rewrite E. auto.
  - unfold SInv in I. rewrite E in I. rewrite (proj2 (get_nth 0 (si s) n _) (conj I eq_refl)). cbn [obind].
    rewrite <- (slice_firstn 0 (si s) (S n)) by auto. rewrite slice_snoc by lia. rewrite rev_app_distr. simpl.
    eexists. split; [reflexivity|]. split; [unfold SInv; cbn; lia|]. cbn. rewrite (slice_firstn 0) by lia. auto.
Qed.

Lemma push_fixed_ok s i : SInv s -> (scur s < length (si s))%nat -> exists s', st_push s i = Some s' /\ SInv s' /\
  rev (content s') = i :: rev (content s) /\ length (si s') = length (si s).
Proof.
  intros I L. unfold st_push. destruct (set_some (si s) (scur s) i L) as (a & E). rewrite E. cbn [obind].
  eexists. split; [reflexivity|]. pose proof (set_length _ _ _ _ E) as Q. split; [unfold SInv; cbn; lia|].
  split; [|exact Q]. unfold content. cbn [scur si]. rewrite (firstn_set _ _ _ _ E), rev_app_distr. reflexivity.
Qed.

Lemma push_flex_ok al s i : (forall n, length (al n) = n) -> SInv s -> (1 <= length (si s))%nat ->
  exists s', fst_push al s i = Some s' /\ SInv s' /\ rev (content s') = i :: rev (content s) /\ (1 <= length (si s'))%nat.
Proof.
  intros AL I L. unfold fst_push.
  set (a := if Nat.eqb (scur s) (length (si s)) then si s ++ skipn (length (si s)) (al (length (si s) * 2)%nat) else si s).
  assert (A : (scur s < length a)%nat /\ firstn (scur s) a = firstn (scur s) (si s)).
  { unfold a. unfold SInv in I. destruct (Nat.eqb_spec (scur s) (length (si s))) as [E|E].
    - rewrite app_length, skipn_length, AL. split; [lia|]. rewrite E, firstn_app, Nat.sub_diag, firstn_O, app_nil_r. reflexivity.
    - split; [lia|auto]. }
  clearbody a. destruct A as [A1 A2].
  destruct (set_some a (scur s) i A1) as (a' & E). rewrite E. cbn [obind].
  eexists. split; [reflexivity|]. pose proof (set_length _ _ _ _ E) as Q. split; [unfold SInv; cbn; lia|].
  split; [|cbn; lia]. unfold content. cbn [scur si]. rewrite (firstn_set _ _ _ _ E), rev_app_distr, A2. reflexivity.
Qed.

Lemma content_length s : SInv s -> length (rev (content s)) = scur s.
Proof. intros I. rewrite rev_length. unfold content. rewrite firstn_length. unfold SInv in I. lia. Qed.

(** IntStack: every sequence never holding more elements than the capacity. *)
Theorem intstack_lifo al size ops : (forall n, length (al n) = n) -> (peak [] ops <= size)%nat ->
  exists s, st_run None (st_init al size) ops = Some (fst (lifo_run [] ops), s) /\
    rev (content s) = snd (lifo_run [] ops) /\ st_getSize s = length (snd (lifo_run [] ops)).
Proof.
  intros AL.
  assert (G : forall ops s l, SInv s -> length (si s) = size -> rev (content s) = l -> (peak l ops <= size)%nat ->
    exists s', st_run None s ops = Some (fst (lifo_run l ops), s') /\ SInv s' /\ rev (content s') = snd (lifo_run l ops)).
  { clear AL ops. induction ops as [|o ops' IH]; intros s l I L E P; cbn [st_run lifo_run peak] in *.
    - exists s. auto.
    - destruct (lifo_step l o) as [v l'] eqn:ES. cbn [snd] in P.
      assert (ST : exists s1, st_step None s o = Some (v, s1) /\ SInv s1 /\ length (si s1) = size /\ rev (content s1) = l').
      { destruct o as [i| |]; cbn [st_step lifo_step] in *.
        - injection ES as <- <-. assert (C : (scur s < length (si s))%nat).
          { assert (Q : (length (i :: l) <= peak (i :: l) ops')%nat) by (destruct ops'; cbn [peak]; lia).
            simpl in Q. rewrite <- E, content_length in Q by auto. rewrite <- E in P. lia. }
          destruct (push_fixed_ok s i I C) as (s1 & -> & I1 & E1 & L1). cbn [obind].
          exists s1. split; [auto|]. split; [auto|]. split; [lia|]. now rewrite E1, E.
        - destruct (pop_ok s I) as (s1 & -> & I1 & E1 & L1). rewrite E in *. cbn [lifo_step] in *. rewrite ES in *. cbn [fst snd] in *.
          exists s1. split; [auto|]. split; [auto|]. split; [lia|auto].
        - injection ES as <- <-. exists (st_clear s). split; [auto|]. split; [unfold SInv; cbn; lia|]. split; [auto|]. reflexivity. }
      destruct ST as (s1 & -> & I1 & L1 & E1). cbn [obind].
      destruct (IH s1 l' I1 L1 E1) as (s2 & -> & I2 & E2); [lia|]. cbn [obind].
      destruct (lifo_run l' ops') as [vs l2]. cbn [fst snd] in *. exists s2. auto. }
  intros P. destruct (G ops (st_init al size) []) as (s & E & I & C); auto.
  - unfold SInv. cbn. lia.
  - cbn. apply AL.
  - exists s. split; [auto|]. split; [auto|]. rewrite <- C, content_length by auto. reflexivity.
Qed.

(** FlexIntStack: every sequence, starting from any positive capacity. *)
Theorem flexstack_lifo al size ops : (forall n, length (al n) = n) -> (1 <= size)%nat ->
  exists s, st_run (Some al) (st_init al size) ops = Some (fst (lifo_run [] ops), s) /\
    rev (content s) = snd (lifo_run [] ops) /\ st_getSize s = length (snd (lifo_run [] ops)).
Proof.
  intros AL S1.
  assert (G : forall ops s l, SInv s -> (1 <= length (si s))%nat -> rev (content s) = l ->
    exists s', st_run (Some al) s ops = Some (fst (lifo_run l ops), s') /\ SInv s' /\ rev (content s') = snd (lifo_run l ops)).
  { induction ops0 as [|o ops' IH]; intros s l I L E; cbn [st_run lifo_run] in *.
    - exists s. auto.
    - destruct (lifo_step l o) as [v l'] eqn:ES.
      assert (ST : exists s1, st_step (Some al) s o = Some (v, s1) /\ SInv s1 /\ (1 <= length (si s1))%nat /\ rev (content s1) = l').
      { destruct o as [i| |]; cbn [st_step lifo_step] in *.
        - injection ES as <- <-.
          destruct (push_flex_ok al s i AL I L) as (s1 & -> & I1 & E1 & L1). cbn [obind].
          exists s1. split; [auto|]. split; [auto|]. split; [lia|]. now rewrite E1, E.
        - destruct (pop_ok s I) as (s1 & -> & I1 & E1 & L1). rewrite E in *. cbn [lifo_step] in *. rewrite ES in *. cbn [fst snd] in *.
          exists s1. split; [auto|]. split; [auto|]. split; [lia|auto].
        - injection ES as <- <-. exists (st_clear s). split; [auto|]. split; [unfold SInv; cbn; lia|]. split; [auto|]. reflexivity. }
      destruct ST as (s1 & -> & I1 & L1 & E1). cbn [obind].
      destruct (IH s1 l' I1 L1 E1) as (s2 & -> & I2 & E2). cbn [obind].
      destruct (lifo_run l' ops') as [vs l2]. cbn [fst snd] in *. exists s2. auto. }
  destruct (G ops (st_init al size) []) as (s & E & I & C); auto.
  - unfold SInv. cbn. lia.
  - cbn. rewrite AL. auto.
  - exists s. split; [auto|]. split; [auto|]. rewrite <- C, content_length by auto. reflexivity.
Qed.

(** Initialised with size 0, doubling does not help: the first push is out of bounds. *)
Theorem flexstack_size_zero_refuted al i : length (al 0%nat) = 0%nat -> fst_push al (st_init al 0) i = None.
Proof. intros H. unfold fst_push, st_init. cbn [si scur]. destruct (al 0%nat) eqn:E; [|discriminate]. simpl. rewrite E. reflexivity. Qed.

(** A full IntStack is written beyond its end. *)
Theorem intstack_full_refuted al : (forall n, length (al n) = n) -> forall i, st_push (st_init al 0) i = None.
Proof. intros AL i. unfold st_push, st_init. cbn [si scur]. specialize (AL 0%nat). destruct (al 0%nat); [reflexivity|discriminate]. Qed.

(** Iteration over the contents of a stack: getFirst followed by [k] calls of getNext returns the elements from the bottom, then
    -1 for ever. *)
Fixpoint st_nexts (k : nat) (s : stack) : option (list Z) :=
  match k with
  | O => Some []
  | S j => '(x, s') <- st_getNext s ;; r <- st_nexts j s' ;; Some (x :: r)
  end.
Definition st_iterate (k : nat) (s : stack) : option (list Z) :=
  '(x, s') <- st_getFirst s ;; r <- st_nexts k s' ;; Some (x :: r).

Theorem stack_iteration s k : (scur s <= length (si s))%nat -> (0 < scur s)%nat ->
  st_iterate k s = Some (firstn (S k) (content s ++ repeat (-1) (S k))).
Proof.
  intros I P. unfold st_iterate, st_getFirst. destruct (Nat.eqb_spec (scur s) 0) as [E|_]; [lia|].
  assert (CN : forall j, (j < scur s)%nat -> get (si s) j = nth_error (content s) j).
  { intros j J. unfold content, get. rewrite <- (firstn_skipn (scur s) (si s)) at 1. rewrite nth_error_app1; auto.
    rewrite firstn_length. lia. }
  assert (LC : length (content s) = scur s) by (unfold content; rewrite firstn_length; lia).
  assert (G : forall k i s', si s' = si s -> scur s' = scur s -> siter s' = i ->
     st_nexts k s' = Some (firstn k (skipn (S i) (content s) ++ repeat (-1) k))).
  { induction k0 as [|j IH]; intros i s' E1 E2 E3; [reflexivity|]. cbn [st_nexts]. unfold st_getNext. cbn [siter].
    rewrite E1, E2, E3. destruct (Nat.ltb_spec (S i) (scur s)) as [L|L].
    - rewrite CN by auto. destruct (nth_error (content s) (S i)) as [x|] eqn:N; [|apply nth_error_None in N; lia].
      cbn [obind]. rewrite (IH (S i)) by auto. cbn [obind].
      assert (SK : skipn (S i) (content s) = x :: skipn (S (S i)) (content s)).
      { clear - N. revert N. generalize (content s), (S i). induction l as [|y l IHl]; intros [|n] N; try discriminate; [now injection N as ->|].
        exact (IHl n N). }
      rewrite SK. cbn [app firstn]. f_equal. f_equal. rewrite !firstn_app. f_equal.
      rewrite <- (firstn_skipn j (repeat (-1) (S j))) at 1. 
      replace (firstn j (repeat (-1) (S j))) with (repeat (-1) j).
      2:{ clear. induction j as [|j IHj]; [reflexivity|]. cbn [repeat firstn]. f_equal. exact IHj. }
      rewrite firstn_app, repeat_length.
      replace (j - length (skipn (S (S i)) (content s)) - j)%nat with 0%nat by lia. now rewrite firstn_O, app_nil_r.
    - cbn [obind]. rewrite (IH (S i)) by auto. cbn [obind].
      rewrite (skipn_all2 (n := S i)) by lia. rewrite (skipn_all2 (n := S (S i))) by lia. reflexivity. }
  destruct (content s) as [|c r] eqn:C; [simpl in LC; lia|].
  rewrite CN by lia. cbn [nth_error obind]. rewrite (G k 0%nat) by auto. cbn [obind skipn].
  cbn [app firstn]. f_equal. f_equal. rewrite !firstn_app. f_equal.
  rewrite <- (firstn_skipn k (repeat (-1) (S k))) at 1.
  replace (firstn k (repeat (-1) (S k))) with (repeat (-1) k).
  2:{ clear. induction k as [|j IHj]; [reflexivity|]. cbn [repeat firstn]. f_equal. exact IHj. }
  rewrite firstn_app, repeat_length. replace (k - length r - k)%nat with 0%nat by lia. now rewrite firstn_O, app_nil_r.
Qed.

Theorem stack_iteration_empty s : scur s = 0%nat -> st_getFirst s = Some (-1, s) /\ st_isEmpty s = true.
Proof. intros E. unfold st_getFirst, st_isEmpty. rewrite E. auto. Qed.

Module Ex.
  Example iterate_ex : st_iterate 4 {| si := [5; 6; 7; 8]; scur := 3; siter := 2 |} = Some [5; 6; 7; -1; -1].
  Proof. vm_compute. reflexivity. Qed.
  Definition prog := [SPush 3; SPush 4; SPush 5; SPop; SPop; SPush 7; SPop; SPop; SPop].
  Example peak_ok : (peak [] prog <= 3)%nat.
  Proof. vm_compute. lia. Qed.
  Example fixed_ex : option_map fst (st_run None (st_init (repeat 9) 3) prog) = Some [0; 0; 0; 5; 4; 0; 7; 3; -1].
  Proof. vm_compute. reflexivity. Qed.
  Example flex_ex : option_map fst (st_run (Some (repeat 9)) (st_init (repeat 9) 1) prog) = Some [0; 0; 0; 5; 4; 0; 7; 3; -1].
  Proof. vm_compute. reflexivity. Qed.
End Ex.

Print Assumptions intstack_lifo.
Print Assumptions flexstack_lifo.
Print Assumptions flexstack_size_zero_refuted.
Print Assumptions intstack_full_refuted.
Print Assumptions stack_iteration.
Print Assumptions stack_iteration_empty.
