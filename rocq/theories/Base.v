(** Small helpers shared by all model files: option monad and array access with
    explicit failure.  Reading or writing outside an array is undefined behaviour in
    the C++ code; here it is the outcome [None]. *)
From Coq Require Export List Arith ZArith Lia Bool Permutation.
Export ListNotations.

Definition obind {A B} (o : option A) (f : A -> option B) : option B :=
  match o with Some a => f a | None => None end.
Notation "x <- e ;; k" := (obind e (fun x => k)) (at level 61, e at next level, right associativity).
Notation "' p <- e ;; k" := (obind e (fun p => k)) (at level 61, p pattern, e at next level, right associativity).

(** [get l i] models the array read [l[i]]. *)
Definition get {A} (l : list A) (i : nat) : option A := nth_error l i.

(** [set l i v] models the array write [l[i] = v]. *)
Fixpoint set {A} (l : list A) (i : nat) (v : A) : option (list A) :=
  match l, i with
  | [], _ => None
  | _ :: t, 0 => Some (v :: t)
  | x :: t, S j => t' <- set t j v ;; Some (x :: t')
  end.

(** A loop over a list whose body may fail. *)
Fixpoint ofold {A B} (f : A -> B -> option A) (l : list B) (a : A) : option A :=
  match l with
  | [] => Some a
  | b :: t => a' <- f a b ;; ofold f t a'
  end.

Fixpoint omap {A B} (f : A -> option B) (l : list A) : option (list B) :=
  match l with
  | [] => Some []
  | a :: t => b <- f a ;; bs <- omap f t ;; Some (b :: bs)
  end.

Definition memb (x : nat) (l : list nat) : bool := existsb (Nat.eqb x) l.

Lemma memb_In x l : memb x l = true <-> In x l.
Proof.
  unfold memb. rewrite existsb_exists. split.
  - intros (y & Hy & E). apply Nat.eqb_eq in E. now subst.
  - intros H. exists x. split; [assumption|apply Nat.eqb_refl].
Qed.

Lemma memb_false x l : memb x l = false <-> ~ In x l.
Proof. rewrite <- memb_In. destruct (memb x l); split; intros; congruence. Qed.

Lemma obind_some {A B} (o : option A) (f : A -> option B) b :
  obind o f = Some b -> exists a, o = Some a /\ f a = Some b.
Proof. destruct o; simpl; intros; [eauto|discriminate]. Qed.

Lemma get_lt {A} (l : list A) i x : get l i = Some x -> i < length l.
Proof. unfold get; intros H. apply nth_error_Some. congruence. Qed.

Lemma get_some {A} (l : list A) i : i < length l -> exists x, get l i = Some x.
Proof.
  unfold get; intros H. destruct (nth_error l i) eqn:E; eauto.
  apply nth_error_None in E. lia.
Qed.

Lemma set_some {A} (l : list A) i v : i < length l -> exists l', set l i v = Some l'.
Proof.
  revert i; induction l as [|a l IH]; intros [|i] H; simpl in *; try lia; eauto.
  destruct (IH i) as (l' & E); [lia|]. rewrite E; simpl; eauto.
Qed.

Lemma set_length {A} (l : list A) i v l' : set l i v = Some l' -> length l' = length l.
Proof.
  revert i l'; induction l as [|a l IH]; intros [|i] l' H; simpl in *; try discriminate.
  - injection H as <-. reflexivity.
  - apply obind_some in H as (t & E & H). injection H as <-. simpl. f_equal. eauto.
Qed.

Lemma set_lt {A} (l : list A) i v l' : set l i v = Some l' -> i < length l.
Proof.
  revert i l'; induction l as [|a l IH]; intros [|i] l' H; simpl in *; try discriminate; [lia|].
  apply obind_some in H as (t & E & H). apply IH in E. lia.
Qed.

Lemma get_set_eq {A} (l : list A) i v l' : set l i v = Some l' -> get l' i = Some v.
Proof.
  revert i l'; induction l as [|a l IH]; intros [|i] l' H; simpl in *; try discriminate.
  - injection H as <-. reflexivity.
  - apply obind_some in H as (t & E & H). injection H as <-. simpl. eauto.
Qed.

Lemma get_set_neq {A} (l : list A) i j v l' : set l i v = Some l' -> i <> j -> get l' j = get l j.
Proof.
  revert i j l'; induction l as [|a l IH]; intros [|i] [|j] l' H N; simpl in *; try discriminate; try congruence.
  - injection H as <-. reflexivity.
  - apply obind_some in H as (t & E & H). injection H as <-. reflexivity.
  - apply obind_some in H as (t & E & H). injection H as <-. simpl. eapply IH; eauto.
Qed.

Ltac inv_opt :=
  repeat match goal with
  | H : obind _ _ = Some _ |- _ =>
      let x := fresh "x" in let E := fresh "E" in
      apply obind_some in H; destruct H as (x & E & H)
  | H : Some _ = Some _ |- _ => injection H as H
  | H : None = Some _ |- _ => discriminate H
  end.

Lemma nodup_app_iff {A} (l1 l2 : list A) :
  NoDup (l1 ++ l2) <-> NoDup l1 /\ NoDup l2 /\ (forall x, In x l1 -> In x l2 -> False).
Proof.
  induction l1 as [|a l1 IH]; simpl.
  - split; [intros H; repeat split; auto; constructor|tauto].
  - split.
    + intros H. inversion H as [|? ? H1 H2]; subst. apply IH in H2 as (N1 & N2 & D).
      repeat split; auto.
      * constructor; auto. intros Ha. apply H1. apply in_or_app; auto.
      * intros x [->|Hx] Hy; [apply H1; apply in_or_app; auto|eauto].
    + intros (N1 & N2 & D). inversion N1 as [|? ? H1 H2]; subst. constructor.
      * intros H. apply in_app_or in H as [H|H]; eauto.
      * apply IH. repeat split; auto. intros x Hx. apply D; auto.
Qed.
