(** C25: bucketSet is a set enumerated in increasing order, also when removing while iterating. *)
From Verif Require Import Base Arr IntUtil_model IntUtil_proof IntSet_model NoDel_proof.
Local Open Scope Z_scope.

Inductive bk_op := KInsert (i : Z) | KErase (i : Z) | KClear | KFirst | KNext | KRemFirst | KRemNext.

Definition bk_step (s : bucket) (o : bk_op) : option bucket :=
  match o with
  | KInsert i => k_insert s i
  | KErase i => k_erase s i
  | KClear => Some (k_clear s)
  | KFirst => Some (snd (k_getFirst s))
  | KNext => Some (snd (k_getNext s))
  | KRemFirst => '(_, s') <- k_removeFirst s ;; Some s'
  | KRemNext => '(_, s') <- k_removeNext s ;; Some s'
  end.
Definition bk_run (alb : nat -> list bool) (size : nat) (l : list bk_op) : option bucket := ofold bk_step l (k_init alb size).

Definition bk_ok (size : nat) (o : bk_op) : Prop :=
  match o with KInsert i | KErase i => 0 <= i < Z.of_nat size | _ => True end.

(** The positions set from [i] on, in increasing order. *)
Definition trues (l : list bool) (i : nat) : list nat := filter (fun k => nth k l false) (seq i (length l - i)).

Lemma trues_in l i k : In k (trues l i) <-> (i <= k)%nat /\ nth k l false = true.
Proof.
  unfold trues. rewrite filter_In, in_seq. split; [intros [? ?]; split; [lia|auto]|]. intros [H1 H2]. split; [|auto].
  destruct (Nat.lt_ge_cases k (length l)); [lia|]. rewrite nth_overflow in H2 by auto. discriminate.
Qed.

Lemma find_true_some l : forall i k, find_true l i = Some k ->
  (i <= k < length l)%nat /\ nth k l false = true /\ forall j, (i <= j < k)%nat -> nth j l false = false.
Proof.
  induction l as [|b l IH]; intros i k H; simpl in H; [discriminate|].
  destruct i as [|i].
  - destruct b.
    + injection H as <-. simpl. split; [lia|]. split; [auto|]. intros; lia.
    + destruct (find_true l 0) as [q|] eqn:E; [|discriminate]. simpl in H. injection H as <-.
      destruct (IH 0%nat q E) as (A & B & C). simpl. split; [lia|]. split; [auto|].
      intros [|j] Hj; [auto|]. apply C. lia.
  - destruct (find_true l i) as [q|] eqn:E; [|discriminate]. simpl in H. injection H as <-.
    destruct (IH i q E) as (A & B & C). simpl. split; [lia|]. split; [auto|].
    intros [|j] Hj; [lia|]. apply C. lia.
Qed.

Lemma find_true_none l : forall i, find_true l i = None -> forall j, (i <= j)%nat -> nth j l false = false.
Proof.
  induction l as [|b l IH]; intros i H j Hj; simpl in H; [now destruct j|].
  destruct i as [|i].
  - destruct b; [discriminate|]. destruct (find_true l 0) eqn:E; [discriminate|].
    destruct j as [|j]; auto. simpl. apply (IH 0%nat); auto. lia.
  - destruct (find_true l i) eqn:E; [discriminate|]. destruct j as [|j]; [lia|]. simpl. apply (IH i); auto. lia.
Qed.

Lemma filter_nil {A} (f : A -> bool) l : (forall x, In x l -> f x = false) -> filter f l = [].
Proof.
  induction l as [|x l IH]; intros H; simpl; auto. rewrite H by now left. apply IH. intros; apply H; now right.
Qed.

Lemma filter_length_le {A} (f : A -> bool) l : (length (filter f l) <= length l)%nat.
Proof. induction l as [|x l IH]; simpl; [lia|]. destruct (f x); simpl; lia. Qed.

Lemma trues_some l i k : find_true l i = Some k -> trues l i = k :: trues l (S k).
Proof.
  intros H. destruct (find_true_some l i k H) as (A & B & C). unfold trues.
  replace (length l - i)%nat with ((k - i) + S (length l - S k))%nat by lia. rewrite seq_app, filter_app.
  rewrite filter_nil; [|intros x Hx; apply in_seq in Hx; apply C; lia].
  replace (i + (k - i))%nat with k by lia. cbn [seq filter app]. rewrite B. reflexivity.
Qed.

Lemma trues_none l i : find_true l i = None -> trues l i = [].
Proof. intros H. unfold trues. apply filter_nil. intros x Hx. apply in_seq in Hx. apply (find_true_none l i); auto. lia. Qed.

(** currentSize is the number of members. *)
Definition KInv (s : bucket) : Prop := kcur s = Z.of_nat (length (trues (kb s) 0)).

Lemma trues_NoDup l i : NoDup (trues l i).
Proof. apply NoDup_filter. apply seq_NoDup. Qed.

Lemma count_insert l k l' : set l k true = Some l' -> nth k l false = false -> length (trues l' 0) = S (length (trues l 0)).
Proof.
  intros H F. assert (P : Permutation (trues l' 0) (k :: trues l 0)).
  { apply NoDup_Permutation; [apply trues_NoDup| |].
    - constructor; [|apply trues_NoDup]. rewrite trues_in. rewrite F. intros [_ Q]. discriminate.
    - intros x. simpl. rewrite !trues_in, (nth_set false _ _ _ _ H). destruct (Nat.eqb_spec x k) as [->|NE].
      + split; [auto|]. intros _. split; [lia|auto].
      + split; [tauto|]. intros [->|]; [congruence|tauto]. }
  now rewrite (Permutation_length P).
Qed.

Lemma count_erase l k l' : set l k false = Some l' -> nth k l false = true -> length (trues l 0) = S (length (trues l' 0)).
Proof.
  intros H F. assert (P : Permutation (trues l 0) (k :: trues l' 0)).
  { apply NoDup_Permutation; [apply trues_NoDup| |].
    - constructor; [|apply trues_NoDup]. rewrite trues_in, (nth_set false _ _ _ _ H), Nat.eqb_refl. intros [_ Q]. discriminate.
    - intros x. simpl. rewrite !trues_in, (nth_set false _ _ _ _ H). destruct (Nat.eqb_spec x k) as [->|NE].
      + split; [auto|]. intros _. split; [lia|auto].
      + split; [tauto|]. intros [->|]; [congruence|tauto]. }
  now rewrite (Permutation_length P).
Qed.

Lemma trues_false l : (forall k, nth k l false = false) -> trues l 0 = [].
Proof. intros H. unfold trues. apply filter_nil. intros; apply H. Qed.

(** ** Specification *)
Definition in_bk (s : bucket) (x : Z) : Prop := k_get s x = Some true.

Lemma in_bk_nth s x : in_bk s x <-> 0 <= x /\ nth (Z.to_nat x) (kb s) false = true.
Proof.
  unfold in_bk, k_get, zget. destruct (Z.ltb_spec x 0).
  - split; [discriminate|lia].
  - rewrite (get_nth false). split; [tauto|]. intros [_ Q]. split; [|auto].
    destruct (Nat.lt_ge_cases (Z.to_nat x) (length (kb s))); auto. rewrite nth_overflow in Q by auto. discriminate.
Qed.

Definition bk_spec_step (s : bucket) (M : Z -> Prop) (o : bk_op) : Z -> Prop :=
  match o with
  | KInsert i => fun x => x = i \/ M x
  | KErase i => fun x => x <> i /\ M x
  | KClear => fun _ => False
  | KFirst | KNext => M
  | KRemFirst => fun x => M x /\ exists y, M y /\ y < x (* all but the least *)
  | KRemNext => fun x => M x /\ (x < Z.of_nat (kiter s) \/ exists y, M y /\ Z.of_nat (kiter s) <= y < x)
  end.

Lemma remove_from_ok s st : KInv s ->
  exists s' v, k_remove_from s st = Some (v, s') /\ KInv s' /\ length (kb s') = length (kb s) /\
   ((exists k, find_true (kb s) st = Some k /\ v = Z.of_nat k /\ kiter s' = S k /\ nth k (kb s) false = true /\
       (forall x, nth x (kb s') false = if Nat.eqb x k then false else nth x (kb s) false)) \/
    (v = -1 /\ s' = s /\ forall j, (st <= j)%nat -> nth j (kb s) false = false)).
Proof.
  intros I. unfold k_remove_from. destruct (Z.eqb_spec (kcur s) 0) as [Z0|NZ].
  - exists s, (-1). split; [auto|]. split; [auto|]. split; [auto|]. right. split; [auto|]. split; [auto|].
    intros j _. destruct (nth j (kb s) false) eqn:N; auto.
    assert (Q : In j (trues (kb s) 0)) by (apply trues_in; split; [lia|auto]).
    unfold KInv in I. destruct (trues (kb s) 0); [destruct Q|simpl in I; lia].
  - destruct (find_true (kb s) st) as [k|] eqn:F.
    + destruct (find_true_some _ _ _ F) as (A & B & C).
      destruct (set_some (kb s) k false) as (b' & E); [lia|]. rewrite E. cbn [obind].
      eexists _, _. split; [reflexivity|]. split; [|split].
      * unfold KInv in *. cbn [kb kcur]. rewrite (count_erase _ _ _ E B) in I. lia.
      * cbn. now apply set_length in E.
      * left. exists k. split; [auto|]. split; [auto|]. split; [auto|]. split; [auto|]. cbn. apply (nth_set false _ _ _ _ E).
    + exists s, (-1). split; [auto|]. split; [auto|]. split; [auto|]. right. split; [auto|]. split; [auto|].
      apply find_true_none. auto.
Qed.

(** Each operation is defined, keeps the size counter right and has the specified effect. *)
Theorem bucket_step_correct s o : KInv s -> bk_ok (length (kb s)) o ->
  exists s', bk_step s o = Some s' /\ KInv s' /\ length (kb s') = length (kb s) /\
    forall x, in_bk s' x <-> bk_spec_step s (in_bk s) o x.
Proof.
  intros I H. destruct o as [i|i| | | | |]; simpl in H |- *.
  - unfold k_insert. rewrite (zget_ok false) by auto. cbn [obind].
    destruct (nth (Z.to_nat i) (kb s) false) eqn:B.
    + exists s. split; [auto|]. split; [auto|]. split; [auto|]. intros x. split; [auto|]. intros [->|]; auto.
      apply in_bk_nth. split; [lia|auto].
    + unfold zset. destruct (Z.ltb_spec i 0); [lia|]. destruct (set_some (kb s) (Z.to_nat i) true) as (b' & E); [lia|].
      rewrite E. cbn [obind]. eexists. split; [reflexivity|]. split; [|split].
      * unfold KInv in *. cbn [kb kcur]. rewrite (count_insert _ _ _ E B). lia.
      * cbn. now apply set_length in E.
      * intros x. rewrite !in_bk_nth. cbn. rewrite (nth_set false _ _ _ _ E).
        destruct (Nat.eqb_spec (Z.to_nat x) (Z.to_nat i)).
        -- split; [intros [Q _]; left; lia|]. intros [->|[Q _]]; split; auto; lia.
        -- split; [auto|]. intros [->|]; [congruence|auto].
  - unfold k_erase. rewrite (zget_ok false) by auto. cbn [obind].
    destruct (nth (Z.to_nat i) (kb s) false) eqn:B.
    + unfold zset. destruct (Z.ltb_spec i 0); [lia|]. destruct (set_some (kb s) (Z.to_nat i) false) as (b' & E); [lia|].
      rewrite E. cbn [obind]. eexists. split; [reflexivity|]. split; [|split].
      * unfold KInv in *. cbn [kb kcur]. rewrite (count_erase _ _ _ E B) in I. lia.
      * cbn. now apply set_length in E.
      * intros x. rewrite !in_bk_nth. cbn. rewrite (nth_set false _ _ _ _ E).
        destruct (Nat.eqb_spec (Z.to_nat x) (Z.to_nat i)).
        -- split; [intros [_ Q]; discriminate|]. intros (N & Q & _). lia.
        -- split; [|tauto]. intros [Q1 Q2]. split; [intros ->; congruence|auto].
    + exists s. split; [auto|]. split; [auto|]. split; [auto|]. intros x. split; [|tauto]. intros Q. split; [|auto].
      intros ->. apply in_bk_nth in Q. rewrite B in Q. now destruct Q.
  - exists (k_clear s). split; [auto|]. unfold k_clear.
    destruct (Z.ltb_spec 0 (kcur s)) as [P|NP].
    + assert (F : forall k, nth k (map (fun _ : bool => false) (kb s)) false = false).
      { intros k. destruct (Nat.lt_ge_cases k (length (kb s))).
        - exact (map_nth (fun _ : bool => false) (kb s) false k).
        - apply nth_overflow. now rewrite map_length. }
      split; [|split].
      * unfold KInv. cbn [kb kcur]. now rewrite trues_false.
      * cbn. now rewrite map_length.
      * intros x. rewrite in_bk_nth. cbn. rewrite F. split; [intros [_ Q]; discriminate|tauto].
    + split; [auto|]. split; [auto|]. intros x. split; [|tauto]. intros Q. apply in_bk_nth in Q.
      assert (Q2 : In (Z.to_nat x) (trues (kb s) 0)) by (apply trues_in; split; [lia|apply Q]).
      unfold KInv in I. destruct (trues (kb s) 0); [destruct Q2|simpl in I; lia].
  - eexists. split; [reflexivity|]. unfold k_getFirst. destruct (Z.eqb (kcur s) 0); cbn; [tauto|].
    destruct (find_true (kb s) 0); cbn; [|tauto]. split; [exact I|]. split; [auto|]. intros x. rewrite !in_bk_nth. cbn. tauto.
  - eexists. split; [reflexivity|]. unfold k_getNext. destruct (Z.eqb (knum s) (kcur s)); cbn; [tauto|].
    destruct (find_true (kb s) (kiter s)); cbn; [|tauto]. split; [exact I|]. split; [auto|]. intros x. rewrite !in_bk_nth. cbn. tauto.
  - destruct (remove_from_ok s 0 I) as (s' & v & E & I' & L & D). unfold k_removeFirst. rewrite E. cbn [obind].
    exists s'. split; [auto|]. split; [auto|]. split; [auto|]. intros x.
    destruct D as [(k & F & _ & _ & N & G)|(_ & -> & NO)].
    + destruct (find_true_some _ _ _ F) as (A & B & C). rewrite in_bk_nth, G. split.
      * intros [X1 X2]. destruct (Nat.eqb_spec (Z.to_nat x) k); [discriminate|].
        split; [now apply in_bk_nth|]. exists (Z.of_nat k). split; [apply in_bk_nth; rewrite Nat2Z.id; split; [lia|auto]|].
        destruct (Nat.lt_ge_cases (Z.to_nat x) k); [|lia]. rewrite C in X2 by lia. discriminate.
      * intros [X (y & Y & YX)]. apply in_bk_nth in X, Y. destruct X as [X1 X2], Y as [Y1 Y2]. split; [auto|].
        destruct (Nat.eqb_spec (Z.to_nat x) k) as [<-|]; [|auto]. rewrite C in Y2 by lia. discriminate.
    + split; [|tauto]. intros Q. apply in_bk_nth in Q. rewrite NO in Q by lia. destruct Q; discriminate.
  - destruct (remove_from_ok s (kiter s) I) as (s' & v & E & I' & L & D). unfold k_removeNext. rewrite E. cbn [obind].
    exists s'. split; [auto|]. split; [auto|]. split; [auto|]. intros x.
    destruct D as [(k & F & _ & _ & N & G)|(_ & -> & NO)].
    + destruct (find_true_some _ _ _ F) as (A & B & C). rewrite in_bk_nth, G. split.
      * intros [X1 X2]. destruct (Nat.eqb_spec (Z.to_nat x) k); [discriminate|].
        split; [now apply in_bk_nth|]. destruct (Z.lt_ge_cases x (Z.of_nat (kiter s))); [auto|]. right.
        exists (Z.of_nat k). split; [apply in_bk_nth; rewrite Nat2Z.id; split; [lia|auto]|].
        destruct (Nat.lt_ge_cases (Z.to_nat x) k); [|lia]. rewrite C in X2 by lia. discriminate.
      * intros [X D]. apply in_bk_nth in X. destruct X as [X1 X2]. split; [auto|].
        destruct (Nat.eqb_spec (Z.to_nat x) k) as [<-|]; [|auto].
        destruct D as [D|(y & Y & YX)]; [lia|]. apply in_bk_nth in Y. destruct Y as [Y1 Y2]. rewrite C in Y2 by lia. discriminate.
    + split; [|tauto]. intros Q. split; [auto|]. left. apply in_bk_nth in Q.
      destruct (Z.lt_ge_cases x (Z.of_nat (kiter s))); [auto|]. rewrite NO in Q by lia. destruct Q; discriminate.
Qed.

Lemma k_init_ok alb size : (forall n, length (alb n) = n) -> KInv (k_init alb size) /\ length (kb (k_init alb size)) = size /\
  forall x, ~ in_bk (k_init alb size) x.
Proof.
  intros AL.
  assert (F : forall k, nth k (map (fun _ : bool => false) (alb size)) false = false).
  { intros k. destruct (Nat.lt_ge_cases k (length (alb size))).
    - exact (map_nth (fun _ : bool => false) (alb size) false k).
    - apply nth_overflow. now rewrite map_length. }
  split; [|split].
  - unfold KInv, k_init, k_clear. cbn [kb kcur Z.ltb Z.compare]. now rewrite trues_false.
  - unfold k_init, k_clear. cbn. rewrite map_length. apply AL.
  - intros x Q. apply in_bk_nth in Q. unfold k_init, k_clear in Q. cbn in Q. rewrite F in Q. destruct Q; discriminate.
Qed.

(** States reached by any sequence of operations, iteration steps included. *)
Theorem bucket_run_defined alb size l : (forall n, length (alb n) = n) -> Forall (bk_ok size) l ->
  exists s, bk_run alb size l = Some s /\ KInv s /\ length (kb s) = size.
Proof.
  intros AL F. destruct (k_init_ok alb size AL) as (I & L & _). unfold bk_run.
  revert I L. generalize (k_init alb size). induction l as [|o l IH]; intros s I L; simpl.
  - exists s. auto.
  - inversion F as [|? ? F1 F2]; subst. destruct (bucket_step_correct s o I F1) as (s1 & -> & I1 & L1 & _). cbn [obind].
    apply IH; auto.
Qed.

(** The loop [for (int i = s.getFirst(); i >= 0; i = s.getNext())], collecting the values. *)
Fixpoint enum_loop (fuel : nat) (s : bucket) (i : Z) : option (list Z) :=
  match fuel with
  | O => None
  | S f => if Z.ltb i 0 then Some [] else
             let '(j, s') := k_getNext s in r <- enum_loop f s' j ;; Some (i :: r)
  end.
Definition enumerate (s : bucket) : option (list Z) :=
  let '(i, s') := k_getFirst s in enum_loop (S (S (length (kb s)))) s' i.

(** The same with removal: [for (int i = s.removeFirst(); i >= 0; i = s.removeNext())]. *)
Fixpoint drain_loop (fuel : nat) (s : bucket) (i : Z) : option (list Z * bucket) :=
  match fuel with
  | O => None
  | S f => if Z.ltb i 0 then Some ([], s) else
             '(j, s') <- k_removeNext s ;; '(r, s2) <- drain_loop f s' j ;; Some (i :: r, s2)
  end.
Definition drain (s : bucket) : option (list Z * bucket) :=
  '(i, s') <- k_removeFirst s ;; drain_loop (S (S (length (kb s)))) s' i.

Definition increasing (e : list Z) : Prop := forall i j, (i < j)%nat -> (j < length e)%nat -> nth i e 0 < nth j e 0.

Lemma trues_increasing l i : increasing (map Z.of_nat (trues l i)).
Proof.
  unfold trues.
  assert (G : forall n f s, increasing (map Z.of_nat (filter f (seq s n))) /\ forall x, In x (map Z.of_nat (filter f (seq s n))) -> Z.of_nat s <= x).
  { induction n as [|n IH]; intros f s; cbn [seq filter].
    - split; [intros a b H1 H2; simpl in H2; lia|intros x []].
    - destruct (IH f (S s)) as [A B]. destruct (f s); cbn [map].
      + split.
        * intros a b H1 H2. destruct a as [|a], b as [|b]; simpl in *; try lia.
          -- assert (Z.of_nat (S s) <= nth b (map Z.of_nat (filter f (seq (S s) n))) 0) by (apply B, nth_In; lia). lia.
          -- apply A; lia.
        * intros x [<-|I]; [lia|]. specialize (B x I). lia.
      + split; [auto|]. intros x I. specialize (B x I). lia. }
  apply G.
Qed.

Lemma enum_loop_ok : forall fuel s k, KInv s -> (length (trues (kb s) (S k)) + 1 < fuel)%nat -> kiter s = S k ->
  knum s + Z.of_nat (length (trues (kb s) (S k))) = kcur s ->
  enum_loop fuel s (Z.of_nat k) = Some (Z.of_nat k :: map Z.of_nat (trues (kb s) (S k))).
Proof.
  induction fuel as [|f IH]; intros s k I F K N; [lia|].
  cbn [enum_loop]. destruct (Z.ltb_spec (Z.of_nat k) 0); [lia|].
  unfold k_getNext. rewrite K.
  destruct (Z.eqb_spec (knum s) (kcur s)) as [E|NE].
  - destruct (trues (kb s) (S k)) as [|q r] eqn:T; [|simpl in N; lia].
    destruct f as [|f]; [simpl in F; lia|]. reflexivity.
  - destruct (find_true (kb s) (S k)) as [q|] eqn:FT.
    + pose proof (trues_some _ _ _ FT) as T. rewrite T in *. cbn [length] in *.
      rewrite (IH {| kb := kb s; kcur := kcur s; kiter := S q; knum := knum s + 1 |} q); cbn [kb kcur kiter knum]; auto; try lia.
    + rewrite (trues_none _ _ FT) in N. simpl in N. lia.
Qed.

(** Enumeration yields exactly the members, in strictly increasing order, and as many as the size says. *)
Theorem bucket_enumerates s : KInv s -> exists e, enumerate s = Some e /\ increasing e /\
  (forall x, In x e <-> in_bk s x) /\ k_getSize s = Z.of_nat (length e).
Proof.
  intros I. exists (map Z.of_nat (trues (kb s) 0)). split; [|split; [apply trues_increasing|split]].
  - unfold enumerate, k_getFirst. destruct (Z.eqb_spec (kcur s) 0) as [E|NE].
    + unfold KInv in I. destruct (trues (kb s) 0); [reflexivity|simpl in I; lia].
    + destruct (find_true (kb s) 0) as [k|] eqn:F.
      * pose proof (trues_some _ _ _ F) as T. rewrite T. unfold KInv in I. rewrite T in I. cbn [length] in I.
        assert (LE : (length (trues (kb s) 0) <= length (kb s))%nat).
        { unfold trues. pose proof (filter_length_le (fun k => nth k (kb s) false) (seq 0 (length (kb s) - 0))) as Q.
          rewrite seq_length in Q. lia. }
        rewrite T in LE. cbn [length] in LE.
        rewrite (enum_loop_ok _ _ k); cbn [kb kcur kiter knum]; auto; try lia.
        unfold KInv. cbn [kb kcur]. rewrite T. cbn [length]. lia.
      * rewrite (trues_none _ _ F). destruct (length (kb s)); reflexivity.
  - intros x. rewrite in_map_iff, in_bk_nth. split.
    + intros (k & <- & Hk). apply trues_in in Hk. rewrite Nat2Z.id. split; [lia|apply Hk].
    + intros [H1 H2]. exists (Z.to_nat x). split; [lia|]. apply trues_in. split; [lia|auto].
  - unfold k_getSize. rewrite map_length. exact I.
Qed.

Lemma trues_after_remove l k l' : set l k false = Some l' -> trues l' (S k) = trues l (S k).
Proof.
  intros H. unfold trues. rewrite (set_length _ _ _ _ H). apply filter_ext_in. intros j Hj. apply in_seq in Hj.
  rewrite (nth_set false _ _ _ _ H). destruct (Nat.eqb_spec j k); [lia|auto].
Qed.

Lemma drain_loop_ok : forall fuel s k, KInv s -> (length (trues (kb s) (S k)) + 1 < fuel)%nat -> kiter s = S k ->
  (forall j, (j <= k)%nat -> nth j (kb s) false = false) ->
  exists s', drain_loop fuel s (Z.of_nat k) = Some (Z.of_nat k :: map Z.of_nat (trues (kb s) (S k)), s') /\
     KInv s' /\ length (kb s') = length (kb s) /\ forall j, nth j (kb s') false = false.
Proof.
  induction fuel as [|f IH]; intros s k I F K NO; [lia|].
  cbn [drain_loop]. destruct (Z.ltb_spec (Z.of_nat k) 0); [lia|].
  destruct (remove_from_ok s (kiter s) I) as (s1 & v & E & I1 & L1 & D). unfold k_removeNext. rewrite E. cbn [obind].
  destruct D as [(q & FT & -> & K1 & N & G)|(-> & -> & NN)].
  - rewrite K in FT. pose proof (trues_some _ _ _ FT) as T. rewrite T in *. cbn [length map] in *.
    destruct (find_true_some _ _ _ FT) as (A & B & C).
    assert (TT : trues (kb s1) (S q) = trues (kb s) (S q)).
    { unfold trues. rewrite L1. apply filter_ext_in. intros j Hj. apply in_seq in Hj. rewrite G.
      destruct (Nat.eqb_spec j q); [lia|auto]. }
    destruct (IH s1 q) as (s2 & E2 & I2 & L2 & N2); auto.
    + rewrite TT. lia.
    + intros j Hj. rewrite G. destruct (Nat.eqb_spec j q); [auto|].
      destruct (Nat.le_gt_cases j k); [now apply NO|apply C; lia].
    + rewrite E2, TT. cbn [obind]. exists s2. split; [auto|]. split; [auto|]. split; [lia|auto].
  - destruct f as [|f]; [lia|]. cbn. exists s. rewrite K in NN.
    replace (trues (kb s) (S k)) with (@nil nat).
    + split; [reflexivity|]. split; [auto|]. split; [auto|]. intros j.
      destruct (Nat.le_gt_cases j k); [now apply NO|apply NN; lia].
    + symmetry. unfold trues. apply filter_nil. intros j Hj. apply in_seq in Hj. apply NN. lia.
Qed.

(** Removing while iterating yields exactly the members in strictly increasing order and leaves the empty set. *)
Theorem bucket_drains s : KInv s -> exists e s', drain s = Some (e, s') /\ increasing e /\
  (forall x, In x e <-> in_bk s x) /\ KInv s' /\ k_getSize s' = 0 /\ (forall x, ~ in_bk s' x).
Proof.
  intros I. destruct (bucket_enumerates s I) as (e & EN & INC & MEM & _).
  assert (EM : forall s', (forall j, nth j (kb s') false = false) -> KInv s' -> KInv s' /\ k_getSize s' = 0 /\ (forall x, ~ in_bk s' x)).
  { intros s' N I'. split; [auto|]. split.
    - unfold k_getSize. rewrite I', trues_false; auto.
    - intros x Q. apply in_bk_nth in Q. rewrite N in Q. destruct Q; discriminate. }
  assert (MEMT : forall x, In x (map Z.of_nat (trues (kb s) 0)) <-> in_bk s x).
  { intros x. rewrite in_map_iff, in_bk_nth. split.
    + intros (k & <- & Hk). apply trues_in in Hk. rewrite Nat2Z.id. split; [lia|apply Hk].
    + intros [H1 H2]. exists (Z.to_nat x). split; [lia|]. apply trues_in. split; [lia|auto]. }
  unfold drain. destruct (remove_from_ok s 0 I) as (s1 & v & E & I1 & L1 & D). unfold k_removeFirst. rewrite E. cbn [obind].
  destruct D as [(q & FT & -> & K1 & N & G)|(-> & -> & NN)].
  - pose proof (trues_some _ _ _ FT) as T. destruct (find_true_some _ _ _ FT) as (A & B & C).
    assert (TT : trues (kb s1) (S q) = trues (kb s) (S q)).
    { unfold trues. rewrite L1. apply filter_ext_in. intros j Hj. apply in_seq in Hj. rewrite G.
      destruct (Nat.eqb_spec j q); [lia|auto]. }
    destruct (drain_loop_ok (S (S (length (kb s)))) s1 q) as (s2 & E2 & I2 & L2 & N2); auto.
    + unfold trues. pose proof (filter_length_le (fun k => nth k (kb s1) false) (seq (S q) (length (kb s1) - S q))) as Q.
      rewrite seq_length in Q. lia.
    + intros j Hj. rewrite G. destruct (Nat.eqb_spec j q); [auto|apply C; lia].
    + rewrite TT in E2. exists (map Z.of_nat (trues (kb s) 0)), s2. rewrite T. split; [exact E2|].
      rewrite <- T. split; [apply trues_increasing|]. split; [auto|]. now apply EM.
  - exists [], s. split; [destruct (length (kb s)); reflexivity|].
    assert (T : trues (kb s) 0 = []) by (apply trues_false; intros; apply NN; lia).
    rewrite T in MEMT. split; [intros i j H1 H2; simpl in H2; lia|]. split; [auto|]. apply EM; auto. intros; apply NN; lia.
Qed.

(** Erasing the current element with [erase] instead of [removeNext] while iterating loses members: getNext compares
    the number of steps with the decreased size. *)
Theorem bucket_erase_while_iterating_refuted : exists s s1, bk_run (repeat true) 4 [KInsert 1; KInsert 2] = Some s /\
  k_getFirst s = (1, s1) /\ exists s2, k_erase s1 1 = Some s2 /\ fst (k_getNext s2) = -1 /\ in_bk s2 2.
Proof. eexists _, _. split; [vm_compute; reflexivity|]. split; [vm_compute; reflexivity|]. eexists. repeat split; vm_compute; reflexivity. Qed.

Module Ex.
  Definition prog := [KInsert 4; KInsert 1; KErase 1; KInsert 2; KInsert 0; KInsert 2; KFirst; KNext].
  Example prog_ok : Forall (bk_ok 5) prog.
  Proof. repeat constructor; simpl; lia. Qed.
  Example prog_runs : (s <- bk_run (repeat true) 5 prog ;; enumerate s) = Some [0; 2; 4].
  Proof. vm_compute. reflexivity. Qed.
  Example prog_drains : (s <- bk_run (repeat true) 5 prog ;; '(e, s') <- drain s ;; Some (e, kcur s')) = Some ([0; 2; 4], 0).
  Proof. vm_compute. reflexivity. Qed.
  Example inv_ex : exists s, bk_run (repeat true) 5 prog = Some s /\ KInv s.
  Proof.
    destruct (bucket_run_defined (repeat true) 5 prog) as (s & E & I & _); [intros; apply repeat_length|apply prog_ok|]. eauto.
  Qed.
End Ex.

Print Assumptions bucket_step_correct.
Print Assumptions bucket_run_defined.
Print Assumptions bucket_enumerates.
Print Assumptions bucket_drains.
Print Assumptions bucket_erase_while_iterating_refuted.
