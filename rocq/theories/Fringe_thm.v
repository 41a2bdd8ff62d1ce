(** Theorems about the fringes (property C33). Proofs are in Fringe_proof. *)
From Coq Require Import ZArith.
From Verif Require Import Base Fringe_model Fringe_proof.
Local Open Scope Z_scope.

(** ** Specification: operations on a double-ended queue *)
Inductive fop (A : Type) := AddFirst (a : A) | AddLast (a : A) | RemoveFirst | RemoveLast | Empty | Size.
Arguments AddFirst {A}. Arguments AddLast {A}. Arguments RemoveFirst {A}. Arguments RemoveLast {A}. Arguments Empty {A}. Arguments Size {A}.
Inductive fout (A : Type) := Done | Node (o : option A) | IsEmpty (b : bool) | HasSize (z : Z).
Arguments Done {A}. Arguments Node {A}. Arguments IsEmpty {A}. Arguments HasSize {A}.

Definition spec_step {A} (l : list A) (o : fop A) : fout A * list A :=
  match o with
  | AddFirst a => (Done, a :: l)
  | AddLast a => (Done, l ++ [a])
  | RemoveFirst => match l with [] => (Node None, []) | a :: r => (Node (Some a), r) end
  | RemoveLast => match l with [] => (Node None, []) | x :: r => (Node (Some (last r x)), removelast l) end
  | Empty => (IsEmpty (match l with [] => true | _ => false end), l)
  | Size => (HasSize (Z.of_nat (length l)), l)
  end.
Fixpoint spec_run {A} (l : list A) (os : list (fop A)) : list (fout A) :=
  match os with [] => [] | o :: r => let '(x, l') := spec_step l o in x :: spec_run l' r end.

Definition code_step {A} (sz : nat) (u : ufringe A) (o : fop A) : option (fout A * ufringe A) :=
  match o with
  | AddFirst a => u' <- addFirst sz u a ;; Some (Done, u')
  | AddLast a => u' <- addLast sz u a ;; Some (Done, u')
  | RemoveFirst => '(x, u') <- removeFirst sz u ;; Some (Node x, u')
  | RemoveLast => '(x, u') <- removeLast sz u ;; Some (Node x, u')
  | Empty => Some (IsEmpty (uf_empty u), u)
  | Size => Some (HasSize (uf_length u), u)
  end.
Fixpoint code_run {A} (sz : nat) (u : ufringe A) (os : list (fop A)) : option (list (fout A)) :=
  match os with [] => Some [] | o :: r => '(x, u') <- code_step sz u o ;; xs <- code_run sz u' r ;; Some (x :: xs) end.

Lemma last_snoc {A} (l : list A) : l <> [] -> exists r a, l = r ++ [a] /\ removelast l = r /\ forall x t, l = x :: t -> last t x = a.
Proof.
  intros N. destruct (exists_last N) as (r & a & ->). exists r, a. split; auto. split; [apply removelast_last|]. intros x t E.
  destruct t as [|y t]; [destruct r as [|z r]; [now injection E as ->|destruct r; discriminate]|]. assert (last (x :: y :: t) x = last (y :: t) x) by reflexivity.
  rewrite <- H, <- E. apply last_last.
Qed.

Lemma step_refines {A} sz (u : ufringe A) l o : (3 <= sz)%nat -> deque sz u l -> exists u', code_step sz u o = Some (fst (spec_step l o), u') /\ deque sz u' (snd (spec_step l o)).
Proof.
  intros SZ D. destruct o as [a|a| | | |]; cbn [code_step spec_step fst snd].
  - destruct (addFirst_ok sz SZ u l a D) as (u' & E & D'). rewrite E. cbn. eauto.
  - destruct (addLast_ok sz SZ u l a D) as (u' & E & D'). rewrite E. cbn. eauto.
  - destruct l as [|a l]; [rewrite (proj1 (remove_empty sz SZ u D)); cbn; eauto|]. destruct (removeFirst_ok sz SZ u a l D) as (u' & E & D'). rewrite E. cbn. eauto.
  - destruct l as [|a l]; [rewrite (proj2 (remove_empty sz SZ u D)); cbn; eauto|]. destruct (last_snoc (a :: l)) as (r & b & EL & ER & EB); [discriminate|].
    rewrite (EB a l eq_refl). cbn [fst snd]. rewrite ER. rewrite EL in D. destruct (removeLast_ok sz SZ u b r D) as (u' & E & D'). rewrite E. cbn. eauto.
  - exists u. split; auto. pose proof (uf_empty_ok sz SZ u l D) as Q. assert (EB : uf_empty u = match l with [] => true | _ => false end); [|now rewrite EB].
    destruct l as [|a l]; [now apply Q|]. destruct (uf_empty u); auto. assert (a :: l = []) by now apply Q. discriminate.
  - exists u. split; auto. destruct D as (ch & _ & _ & _ & _ & _ & E). unfold uf_length. now rewrite E.
Qed.

(** Every sequence of operations is defined and has the results of a double-ended queue; the size of the containers is irrelevant (the
    code uses 1024 * 1024). *)
Theorem unsorted_fringe_refines : forall A sz (os : list (fop A)), (3 <= sz)%nat -> code_run sz (uf_new sz) os = Some (spec_run [] os).
Proof.
  intros A sz os SZ. assert (Q : forall l u, deque sz u l -> code_run sz u os = Some (spec_run l os)).
  { induction os as [|o os IH]; intros l u D; [reflexivity|]. cbn [code_run spec_run]. destruct (step_refines sz u l o SZ D) as (u' & E & D').
    rewrite E. destruct (spec_step l o) as [x l']. cbn [fst snd obind] in *. rewrite (IH l' u' D'). reflexivity. }
  apply Q. now apply uf_new_ok.
Qed.

(** Queue and stack: pushing [l] and then popping [length l] times gives [l], respectively the reverse, and then the fringe is empty. *)
Lemma spec_app {A} (l : list A) o1 o2 : spec_run l (o1 ++ o2) = spec_run l o1 ++ spec_run (fold_left (fun l o => snd (spec_step l o)) o1 l) o2.
Proof. revert l. induction o1 as [|o o1 IH]; intros l; [reflexivity|]. cbn [app spec_run fold_left]. destruct (spec_step l o) as [x l'] eqn:E. cbn [fst snd app]. now rewrite IH. Qed.
Lemma push_all {A} (l k : list A) : fold_left (fun l o => snd (spec_step l o)) (map AddLast l) k = k ++ l.
Proof. revert k. induction l as [|a l IH]; intros k; cbn; [now rewrite app_nil_r|]. rewrite IH, <- app_assoc. reflexivity. Qed.
Lemma push_outs {A} (l k : list A) : spec_run k (map AddLast l) = repeat Done (length l).
Proof. revert k. induction l as [|a l IH]; intros k; cbn; [reflexivity|]. now rewrite IH. Qed.

Theorem queue_fifo : forall A sz (l : list A), (3 <= sz)%nat ->
  code_run sz (uf_new sz) (map AddLast l ++ repeat RemoveFirst (length l) ++ [Empty]) = Some (repeat Done (length l) ++ map (fun a => Node (Some a)) l ++ [IsEmpty true]).
Proof.
  intros A sz l SZ. rewrite unsorted_fringe_refines by auto. rewrite spec_app, push_outs, push_all. cbn [app]. do 2 f_equal.
  induction l as [|a l IH]; [reflexivity|]. cbn. now rewrite IH.
Qed.
Theorem stack_lifo : forall A sz (l : list A), (3 <= sz)%nat ->
  code_run sz (uf_new sz) (map AddLast l ++ repeat RemoveLast (length l) ++ [Empty]) = Some (repeat Done (length l) ++ map (fun a => Node (Some a)) (rev l) ++ [IsEmpty true]).
Proof.
  intros A sz l SZ. rewrite unsorted_fringe_refines by auto. rewrite spec_app, push_outs, push_all. cbn [app]. do 2 f_equal.
  induction l as [|a l IH] using rev_ind; [reflexivity|]. rewrite app_length, rev_app_distr. cbn [length rev app map]. rewrite Nat.add_1_r. cbn [repeat app spec_run].
  assert (E : spec_step (l ++ [a]) RemoveLast = (Node (Some a), l)).
  { unfold spec_step. destruct (last_snoc (l ++ [a])) as (r & b & EL & ER & EB); [destruct l; discriminate|]. apply app_inj_tail in EL as [-> <-]. rewrite ER.
    destruct (r ++ [a]) as [|x t] eqn:EX; [destruct r; discriminate|]. now rewrite (EB x t eq_refl). }
  rewrite E. now rewrite IH.
Qed.

(** The assertion in [empty] (debug builds) does not hold: after addFirst has filled a container, and the fringe has been emptied from the
    other side, first and last container differ. *)
Theorem empty_assert_refuted : exists sz (u : ufringe nat) l, (3 <= sz)%nat /\
  fold_left (fun u o => u <- u ;; '(_, u') <- code_step sz u o ;; Some u') l (Some (uf_new sz)) = Some u /\ uf_empty u = true /\ uf_empty_assert u = Some false.
Proof.
  exists 4%nat. eexists. exists [AddFirst 0%nat; AddFirst 1%nat; AddFirst 2%nat; RemoveLast; RemoveLast; RemoveLast]. split; [lia|]. split; [vm_compute; reflexivity|]. split; reflexivity.
Qed.

(** ** The priority queue *)

(** The comparator is a strict weak order on nodes with the same number of heuristic values, as required by std::priority_queue. *)
Theorem comparator_strict_weak : forall N k (a b c : entry N), length (en_h a) = k -> length (en_h b) = k -> length (en_h c) = k ->
  pop_after a a = false /\ (pop_after a b = true -> pop_after b c = true -> pop_after a c = true) /\
  (pop_after a b = false -> pop_after b c = false -> pop_after a c = false).
Proof.
  intros N k a b c La Lb Lc. rewrite !after_key by congruence. split; [apply lexlt_irr|]. split.
  - intros H1 H2. eapply lexlt_trans; eauto.
  - intros H1 H2. eapply lexlt_neg; [| |exact H2|exact H1]; apply key_length; congruence.
Qed.

(** What the C++ standard says about std::priority_queue: the top is an element such that no other element compares greater. [k] is the
    number of heuristics. *)
Definition pq_ok {N} (k : nat) (push : entry N -> list (entry N) -> list (entry N)) (pop : list (entry N) -> option (entry N * list (entry N))) : Prop :=
  (forall e q, Permutation (push e q) (e :: q)) /\
  (forall q e q', Forall (fun e => length (en_h e) = k) q -> pop q = Some (e, q') -> Permutation q (e :: q') /\ forall x, In x q -> pop_after e x = false) /\
  (forall q, pop q = None -> q = []).

(** The popped node has the smallest f value, among these the smallest values of the second, third, ... heuristic, and then the smallest
    random number. *)
Fixpoint lex_least (a b : list Z) : Prop :=
  match a, b with
  | x :: a', y :: b' => x < y \/ (x = y /\ lex_least a' b')
  | _, _ => True
  end.
Theorem queue_pops_minimum : forall N k push pop (q : list (entry N)) e q', pq_ok k push pop -> Forall (fun e => length (en_h e) = k) q -> pop q = Some (e, q') ->
  forall x, In x q -> en_f e <= en_f x /\ lex_least (en_f e :: tl (en_h e) ++ [en_rand e]) (en_f x :: tl (en_h x) ++ [en_rand x]).
Proof.
  intros N k push pop q e q' (_ & P2 & _) FA E x Hx. destruct (P2 q e q' FA E) as [PM MX]. specialize (MX x Hx).
  rewrite Forall_forall in FA. assert (L : length (en_h e) = length (en_h x)) by (rewrite !FA; auto; apply (Permutation_in e (Permutation_sym PM)); now left).
  rewrite after_key in MX by auto.
  assert (Q : forall a b, length a = length b -> lexlt b a = false -> lex_least a b).
  { induction a as [|u a IH]; intros [|v b] LL; cbn; auto; try discriminate. destruct (Z.eqb_spec v u) as [->|N1]; [right; split; auto|]. rewrite Z.ltb_ge. left. lia. }
  specialize (Q (key e) (key x) (key_length _ _ L) MX). split; auto. cbn in Q. lia.
Qed.

(** An implementation that satisfies the contract: search for the best element. *)
Fixpoint best {N} (e : entry N) (q : list (entry N)) : entry N * list (entry N) :=
  match q with
  | [] => (e, [])
  | x :: r => if pop_after e x then let '(y, r') := best x r in (y, e :: r') else let '(y, r') := best e r in (y, x :: r')
  end.
Definition pq_pop {N} (q : list (entry N)) : option (entry N * list (entry N)) := match q with [] => None | e :: r => Some (best e r) end.
Theorem pq_pop_ok : forall N k, @pq_ok N k cons pq_pop.
Proof.
  intros N k. split; [reflexivity|split].
  - intros [|e q] y q' FA E; [discriminate|]. cbn [pq_pop] in E. injection E as E.
    revert e y q' FA E. induction q as [|x q IH]; intros e y q' FA E; cbn [best] in E.
    + injection E as <- <-. split; [reflexivity|]. intros z [<-|[]]. exact (proj1 (comparator_strict_weak N _ e e e eq_refl eq_refl eq_refl)).
    + inversion FA as [|? ? Le FA1]; subst. inversion FA1 as [|? ? Lx FA2]; subst.
      destruct (pop_after e x) eqn:EA.
      * destruct (best x q) as [y0 r'] eqn:EB. injection E as <- <-. destruct (IH x y0 r' FA1 EB) as [PM MX]. split.
        { rewrite PM. apply perm_swap. }
        intros z [<-|Hz]; auto.
        assert (Ly : length (en_h y0) = length (en_h e)). { rewrite Forall_forall in FA1. apply FA1. apply (Permutation_in y0 (Permutation_sym PM)). now left. }
        destruct (pop_after y0 e) eqn:EY; auto. destruct (comparator_strict_weak N _ y0 e x Ly eq_refl Lx) as (_ & T & _). specialize (MX x (or_introl eq_refl)). rewrite (T EY EA) in MX. discriminate.
      * destruct (best e q) as [y0 r'] eqn:EB. injection E as <- <-. destruct (IH e y0 r' (Forall_cons _ eq_refl FA2) EB) as [PM MX]. split.
        { rewrite perm_swap, PM. apply perm_swap. }
        intros z [<-|[<-|Hz]]; [apply MX; now left| |apply MX; now right].
        assert (Ly : length (en_h y0) = length (en_h e)). { assert (FB : Forall (fun x => length (en_h x) = length (en_h e)) (e :: q)) by (constructor; auto). rewrite Forall_forall in FB. apply FB. apply (Permutation_in y0 (Permutation_sym PM)). now left. }
        destruct (comparator_strict_weak N _ y0 e x Ly eq_refl Lx) as (_ & _ & T). apply T; auto. apply MX. now left.
  - intros [|? ?] E; [auto|discriminate].
Qed.

Module Ex.
  (** Containers of size 4: the operations cross the borders of containers on both sides. *)
  Example crossing : code_run 4 (uf_new 4) (map AddFirst [1; 2; 3; 4; 5]%nat ++ map AddLast [6; 7; 8]%nat ++ [RemoveLast; RemoveFirst; Size; RemoveLast; RemoveLast; RemoveLast; RemoveLast; RemoveLast; RemoveLast; RemoveLast; Empty]) =
    Some (repeat Done 8 ++ [Node (Some 8); Node (Some 5); HasSize 6; Node (Some 7); Node (Some 6); Node (Some 1); Node (Some 2); Node (Some 3); Node (Some 4); Node None; IsEmpty true])%nat.
  Proof. vm_compute. reflexivity. Qed.
  Example queue_example : pq_pop [{| en_node := 0; en_f := 5; en_h := [5; 1]; en_rand := 3 |}; {| en_node := 1; en_f := 4; en_h := [4; 7]; en_rand := 9 |}; {| en_node := 2; en_f := 4; en_h := [4; 2]; en_rand := 9 |}]%Z
    = Some ({| en_node := 2; en_f := 4; en_h := [4; 2]; en_rand := 9 |}, [{| en_node := 0; en_f := 5; en_h := [5; 1]; en_rand := 3 |}; {| en_node := 1; en_f := 4; en_h := [4; 7]; en_rand := 9 |}])%Z.
  Proof. reflexivity. Qed.
End Ex.

Print Assumptions unsorted_fringe_refines.
Print Assumptions queue_fifo.
Print Assumptions stack_lifo.
Print Assumptions empty_assert_refuted.
Print Assumptions comparator_strict_weak.
Print Assumptions queue_pops_minimum.
Print Assumptions pq_pop_ok.
