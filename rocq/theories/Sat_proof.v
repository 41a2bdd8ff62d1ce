(** Proofs about the encoder (properties C41, C42). *)
From Coq Require Import ZArith.
From Verif Require Import Base Sat_model Sat_spec.

Local Open Scope Z_scope.

Definition lit_ok (n l : Z) : Prop := 1 <= Z.abs l <= n.
Definition vars_le (n : Z) (F : list clause) : Prop := forall c l, In c F -> In l c -> lit_ok n l.

Lemma lit_neg v l : l <> 0 -> lit_true v (- l) = negb (lit_true v l).
Proof.
  intros H. unfold lit_true. destruct (Z.ltb_spec l 0), (Z.ltb_spec (- l) 0); try lia.
  - now rewrite negb_involutive.
  - now rewrite Z.opp_involutive.
Qed.
Lemma lit_pos v x : 0 < x -> lit_true v x = v x.
Proof. intros H. unfold lit_true. destruct (Z.ltb_spec x 0); [lia|reflexivity]. Qed.
Lemma lit_npos v x : 0 < x -> lit_true v (- x) = negb (v x).
Proof. intros H. rewrite lit_neg by lia. now rewrite lit_pos. Qed.
Lemma lit_agree n v v' l : lit_ok n l -> agree n v v' -> lit_true v l = lit_true v' l.
Proof. intros [L1 L2] A. unfold lit_true. destruct (Z.ltb_spec l 0); [f_equal|]; apply A; lia. Qed.

Lemma sat_nil v : satisfies v [].
Proof. intros c []. Qed.
Lemma sat_app v F G : satisfies v (F ++ G) <-> satisfies v F /\ satisfies v G.
Proof.
  split.
  - intros H. split; intros c Hc; apply H; apply in_or_app; auto.
  - intros [H1 H2] c Hc. apply in_app_or in Hc as [Hc|Hc]; auto.
Qed.
Lemma sat_cons v c F : satisfies v (c :: F) <-> (exists l, In l c /\ lit_true v l = true) /\ satisfies v F.
Proof.
  split.
  - intros H. split; [apply H; now left|intros d Hd; apply H; now right].
  - intros [H1 H2] d [<-|Hd]; auto.
Qed.
Lemma sat_flat {A} v (f : A -> list clause) l : satisfies v (flat_map f l) <-> forall x, In x l -> satisfies v (f x).
Proof.
  split.
  - intros H x Hx c Hc. apply H. apply in_flat_map. eauto.
  - intros H c Hc. apply in_flat_map in Hc as (x & Hx & Hc). exact (H x Hx c Hc).
Qed.
Lemma sat_map {A} v (f : A -> clause) l : satisfies v (map f l) <-> forall x, In x l -> exists y, In y (f x) /\ lit_true v y = true.
Proof.
  split.
  - intros H x Hx. apply H. now apply in_map.
  - intros H c Hc. apply in_map_iff in Hc as (x & <- & Hx). auto.
Qed.
Lemma sat_one v c : satisfies v [c] <-> exists l, In l c /\ lit_true v l = true.
Proof. rewrite sat_cons. split; [tauto|]. intros H. split; auto. apply sat_nil. Qed.
Lemma sat_agree n v v' F : vars_le n F -> agree n v v' -> satisfies v F -> satisfies v' F.
Proof.
  intros VL A H c Hc. destruct (H c Hc) as (l & Il & Tl). exists l. split; auto. rewrite <- (lit_agree n v v' l); auto. eapply VL; eauto.
Qed.
Lemma vars_app n F G : vars_le n (F ++ G) <-> vars_le n F /\ vars_le n G.
Proof.
  split.
  - intros H. split; intros c l Hc Hl; apply (H c l); auto; apply in_or_app; auto.
  - intros [H1 H2] c l Hc Hl. apply in_app_or in Hc as [Hc|Hc]; [eapply H1|eapply H2]; eauto.
Qed.
Lemma vars_mono n n' F : n <= n' -> vars_le n F -> vars_le n' F.
Proof. intros L H c l Hc Hl. specialize (H c l Hc Hl). unfold lit_ok in *. lia. Qed.
Lemma vars_flat {A} n (f : A -> list clause) l : vars_le n (flat_map f l) <-> forall x, In x l -> vars_le n (f x).
Proof.
  split.
  - intros H x Hx c y Hc Hy. apply (H c y); auto. apply in_flat_map. eauto.
  - intros H c y Hc Hy. apply in_flat_map in Hc as (x & Hx & Hc). exact (H x Hx c y Hc Hy).
Qed.
Lemma vars_nil n : vars_le n [].
Proof. intros c l []. Qed.
Lemma vars_cons n c F : vars_le n (c :: F) <-> (forall l, In l c -> lit_ok n l) /\ vars_le n F.
Proof.
  split.
  - intros H. split; [intros l Hl; apply (H c l); auto; now left|intros d l Hd Hl; apply (H d l); auto; now right].
  - intros [H1 H2] d l [<-|Hd] Hl; eauto.
Qed.

(** The meaning of the small clauses. *)
Lemma sat_yes v i : satisfies v (assertYes i) <-> lit_true v i = true.
Proof. unfold assertYes. rewrite sat_one. split; [intros (l & [<-|[]] & H); auto|exists i; split; auto; now left]. Qed.
Lemma sat_not v i : i <> 0 -> satisfies v (assertNot i) <-> lit_true v i = false.
Proof.
  intros N. unfold assertNot. rewrite sat_one. split.
  - intros (l & [<-|[]] & H). rewrite lit_neg in H by auto. now apply negb_true_iff.
  - intros H. exists (- i). split; [now left|]. rewrite lit_neg by auto. now rewrite H.
Qed.
Lemma sat_implies v i j : i <> 0 -> satisfies v (implies i j) <-> (lit_true v i = true -> lit_true v j = true).
Proof.
  intros N. unfold implies. rewrite sat_one. split.
  - intros (l & [<-|[<-|[]]] & H) Hi; auto. rewrite lit_neg, Hi in H by auto. discriminate.
  - intros H. destruct (lit_true v i) eqn:E; [exists j; split; [right; now left|auto]|].
    exists (- i). split; [now left|]. rewrite lit_neg, E by auto. reflexivity.
Qed.
Lemma sat_implies_not v i j : i <> 0 -> j <> 0 -> satisfies v (impliesNot i j) <-> (lit_true v i = true -> lit_true v j = false).
Proof.
  intros N M. change (impliesNot i j) with (implies i (- j)). rewrite sat_implies by auto. rewrite lit_neg by auto. rewrite negb_true_iff. reflexivity.
Qed.
Lemma sat_implies_and v i j k : i <> 0 -> j <> 0 -> satisfies v (impliesAnd i j k) <-> (lit_true v i = true -> lit_true v j = true -> lit_true v k = true).
Proof.
  intros N M. unfold impliesAnd. rewrite sat_one. split.
  - intros (l & [<-|[<-|[<-|[]]]] & H) Hi Hj; auto; rewrite lit_neg in H by auto; rewrite ?Hi, ?Hj in H; discriminate.
  - intros H. destruct (lit_true v i) eqn:E; [|exists (- i); split; [now left|]; rewrite lit_neg, E by auto; reflexivity].
    destruct (lit_true v j) eqn:E'; [|exists (- j); split; [right; now left|]; rewrite lit_neg, E' by auto; reflexivity].
    exists k. split; auto. right; right; now left.
Qed.
Lemma sat_implies_or v i j : i <> 0 -> satisfies v (impliesOr i j) <-> (lit_true v i = true -> exists l, In l j /\ lit_true v l = true).
Proof.
  intros N. unfold impliesOr. rewrite sat_one. split.
  - intros (l & [<-|Hl] & H) Hi; [|eauto]. rewrite lit_neg, Hi in H by auto. discriminate.
  - intros H. destruct (lit_true v i) eqn:E; [destruct (H eq_refl) as (l & Il & Tl); exists l; split; auto; now right|].
    exists (- i). split; [now left|]. rewrite lit_neg, E by auto. reflexivity.
Qed.
Lemma sat_implies_all_not v i j : i <> 0 -> (forall x, In x j -> x <> 0) ->
  satisfies v (impliesAllNot i j) <-> (lit_true v i = true -> forall x, In x j -> lit_true v x = false).
Proof.
  intros N M. unfold impliesAllNot. rewrite sat_map. split.
  - intros H Hi x Hx. assert (Q := H x Hx). change (satisfies v (impliesNot i x)) in Q || (apply sat_one in Q). apply (sat_implies_not v i x); auto.
  - intros H x Hx. apply sat_one. apply (sat_implies_not v i x); auto.
Qed.
Lemma sat_frame v i j k : i <> 0 -> satisfies v (impliesPosAndNegImpliesOr i j k) <->
  (lit_true v i = true -> lit_true v j = false -> exists l, In l k /\ lit_true v l = true).
Proof.
  intros N. change (impliesPosAndNegImpliesOr i j k) with (impliesOr i (j :: k)). rewrite sat_implies_or by auto. split.
  - intros H Hi Hj. destruct (H Hi) as (l & [<-|Il] & Tl); [congruence|eauto].
  - intros H Hi. destruct (lit_true v j) eqn:E; [exists j; split; auto; now left|]. destruct (H Hi eq_refl) as (l & Il & Tl). exists l. split; auto. now right.
Qed.

(** ** Composition *)
Record encodes (n m : Z) (F : list clause) (B : assignment -> Prop) : Prop := {
  e_le : n <= m;
  e_vars : vars_le m F;
  e_dep : forall v v', agree n v v' -> B v -> B v';
  e_exp : expresses n m F B }.

Lemma encodes_app n m k F G B D : encodes n m F B -> encodes m k G D -> (forall v v', agree n v v' -> D v -> D v') -> encodes n k (F ++ G) (fun v => B v /\ D v).
Proof.
  intros [L1 V1 D1 [S1 C1]] [L2 V2 D2 [S2 C2]] DD. split; [lia| | |split].
  - apply vars_app. split; [eapply vars_mono; eauto|auto].
  - intros v v' A [H1 H2]. split; eauto.
  - intros v H. apply sat_app in H as [H1 H2]. split; auto.
  - intros v [H1 H2]. destruct (C1 v H1) as (v1 & A1 & T1).
    destruct (C2 v1) as (v2 & A2 & T2). { eapply DD; [|exact H2]. intros x Hx. rewrite A1; auto. lia. }
    exists v2. split.
    + intros x Hx. rewrite A2 by lia. apply A1. lia.
    + apply sat_app. split; auto. eapply sat_agree; [exact V1| |exact T1]. intros x Hx. symmetry. apply A2. lia.
Qed.
Lemma encodes_weaken n m F B B' : (forall v, B v <-> B' v) -> encodes n m F B -> encodes n m F B'.
Proof.
  intros Q [L V D [S C]]. split; auto.
  - intros v v' A H. apply Q. eapply D; eauto. now apply Q.
  - split; [intros v H; apply Q; auto|intros v H; apply C; now apply Q].
Qed.
Lemma encodes_plain n F B : vars_le n F -> 0 <= n -> (forall v, satisfies v F <-> B v) -> encodes n n F B.
Proof.
  intros V L Q. split; auto; [lia| |split].
  - intros v v' A H. apply Q. eapply sat_agree; eauto. now apply Q.
  - intros v H. now apply Q.
  - intros v H. exists v. split; auto. now apply Q.
Qed.
Lemma encodes_nil n (B : assignment -> Prop) : 0 <= n -> (forall v, B v) -> encodes n n [] B.
Proof. intros L H. apply encodes_plain; auto; [apply vars_nil|]. intros v. split; auto. intros _. apply sat_nil. Qed.

(** ** At most one *)
Definition at_most_one (v : assignment) (is : list Z) : Prop :=
  forall i j x y, nth_error is i = Some x -> nth_error is j = Some y -> lit_true v x = true -> lit_true v y = true -> i = j.

Lemma count_cons v x is : count_true v (x :: is) = ((if lit_true v x then 1 else 0) + count_true v is)%nat.
Proof. unfold count_true. cbn. destruct (lit_true v x); reflexivity. Qed.
Lemma count_zero v is : count_true v is = 0%nat <-> forall x, In x is -> lit_true v x = false.
Proof.
  induction is as [|x is IH]; [split; [intros _ x []|reflexivity]|]. rewrite count_cons. split.
  - intros H y [<-|Hy]; [destruct (lit_true v x); [lia|auto]|]. apply IH; auto. destruct (lit_true v x); lia.
  - intros H. rewrite (H x (or_introl eq_refl)). apply IH. intros y Hy. apply H. now right.
Qed.
Lemma count_one v is : (count_true v is <= 1)%nat <-> at_most_one v is.
Proof.
  induction is as [|x is IH]; [split; [intros _ [|i] j a b Q; discriminate|cbn; lia]|]. rewrite count_cons. split.
  - intros H [|i] [|j] a b Ha Hb Ta Tb; cbn in Ha, Hb; auto.
    + injection Ha as <-. rewrite Ta in H. assert (Z := proj1 (count_zero v is) ltac:(lia)). apply nth_error_In in Hb. rewrite (Z b Hb) in Tb. discriminate.
    + injection Hb as <-. rewrite Tb in H. assert (Z := proj1 (count_zero v is) ltac:(lia)). apply nth_error_In in Ha. rewrite (Z a Ha) in Ta. discriminate.
    + f_equal. apply (proj1 IH ltac:(lia) i j a b); auto.
  - intros H. destruct (lit_true v x) eqn:E.
    + assert (count_true v is = 0%nat); [|lia]. apply count_zero. intros y Hy. destruct (lit_true v y) eqn:E'; auto. apply In_nth_error in Hy as (j & Ej).
      specialize (H 0%nat (S j) x y eq_refl Ej E E'). discriminate.
    + apply IH. intros i j a b Ha Hb Ta Tb. specialize (H (S i) (S j) a b Ha Hb Ta Tb). lia.
Qed.
Lemma count_agree n v v' is : (forall x, In x is -> lit_ok n x) -> agree n v v' -> count_true v is = count_true v' is.
Proof.
  intros OK A. induction is as [|x is IH]; auto. rewrite !count_cons, IH by (intros y Hy; apply OK; now right). now rewrite (lit_agree n v v' x (OK x (or_introl eq_refl)) A).
Qed.

Lemma binomial_sat v is : (forall x, In x is -> x <> 0) -> satisfies v (atMostOneBinomial is) <-> (count_true v is <= 1)%nat.
Proof.
  induction is as [|x is IH]; intros N; [split; [cbn; lia|intros _; apply sat_nil]|]. cbn [atMostOneBinomial]. rewrite sat_app, sat_flat, IH by (intros; apply N; now right).
  rewrite count_cons. split.
  - intros [H1 H2]. destruct (lit_true v x) eqn:E; [|lia]. assert (count_true v is = 0%nat); [|lia]. apply count_zero. intros y Hy.
    specialize (H1 y Hy). rewrite sat_implies_not in H1 by (apply N; [now left|now right] || (apply N; now right) || (apply N; now left)). auto.
  - intros H. split; [|destruct (lit_true v x); lia]. intros y Hy. apply sat_implies_not; [apply N; now left|apply N; now right|]. intros E. rewrite E in H.
    apply (proj1 (count_zero v is)); auto. lia.
Qed.
Lemma binomial_vars n is : (forall x, In x is -> lit_ok n x) -> vars_le n (atMostOneBinomial is).
Proof.
  induction is as [|x is IH]; intros OK; [apply vars_nil|]. cbn [atMostOneBinomial]. apply vars_app. split; [|apply IH; intros; apply OK; now right].
  apply vars_flat. intros y Hy. unfold impliesNot. apply vars_cons. split; [|apply vars_nil]. intros l [<-|[<-|[]]]; unfold lit_ok; rewrite Z.abs_opp; apply OK; [now left|now right].
Qed.

Lemma combine_seq {A} (l : list A) b i x : In (i, x) (combine (seq b (length l)) l) <-> (b <= i)%nat /\ nth_error l (i - b) = Some x.
Proof.
  revert b. induction l as [|a l IH]; intros b; cbn.
  - split; [intros []|intros [_ H]]. destruct (i - b)%nat; discriminate.
  - rewrite IH. split.
    + intros [[= -> ->]|[H1 H2]]; [split; auto; rewrite Nat.sub_diag; reflexivity|]. split; [lia|]. replace (i - b)%nat with (S (i - S b)) by lia. exact H2.
    + intros [H1 H2]. destruct (Nat.eq_dec b i) as [->|Ne]; [left; rewrite Nat.sub_diag in H2; cbn in H2; congruence|]. right. split; [lia|].
      replace (i - b)%nat with (S (i - S b)) in H2 by lia. exact H2.
Qed.

Lemma testbit_ext k i j : (i < 2 ^ k)%nat -> (j < 2 ^ k)%nat -> (forall b, (b < k)%nat -> Nat.testbit i b = Nat.testbit j b) -> i = j.
Proof.
  intros Hi Hj H. apply Nat.bits_inj. intros b. destruct (Nat.lt_ge_cases b k) as [L|L]; [auto|].
  assert (T : forall x, (x < 2 ^ k)%nat -> Nat.testbit x b = false).
  { intros x Hx. rewrite Nat.testbit_eqb. assert (2 ^ k <= 2 ^ b)%nat by (apply Nat.pow_le_mono_r; lia). rewrite Nat.div_small by lia. reflexivity. }
  rewrite !T; auto.
Qed.

Section Log.
  Variables (k : nat) (nv : Z) (is : list Z).
  Hypothesis OK : forall x, In x is -> lit_ok nv x.
  Hypothesis SZ : (length is <= 2 ^ k)%nat.
  Let F := flat_map (fun p => amo_bits k (nv + 1) (fst p) (snd p)) (combine (seq 0 (length is)) is).

  Lemma log_pos (NE : is <> []) : 1 <= nv.
  Proof. destruct is as [|x r]; [congruence|]. specialize (OK x (or_introl eq_refl)). unfold lit_ok in OK. lia. Qed.

  Lemma log_sat v : 0 <= nv -> satisfies v F <-> forall i x b, nth_error is i = Some x -> (b < k)%nat -> lit_true v x = true -> v (nv + 1 + Z.of_nat b) = negb (Nat.testbit i b).
  Proof.
    intros NV. unfold F. rewrite sat_flat. split.
    - intros H i x b Hx Hb T. assert (Q := H (i, x) ltac:(apply combine_seq; split; [lia|now rewrite Nat.sub_0_r])). cbn [fst snd] in Q. unfold amo_bits in Q.
      assert (X0 : x <> 0). { specialize (OK x (nth_error_In _ _ Hx)). unfold lit_ok in OK. lia. }
      rewrite sat_map in Q. destruct (Q b ltac:(apply in_seq; lia)) as (l & [<-|[<-|[]]] & Tl); [rewrite lit_neg, T in Tl by auto; discriminate|].
      destruct (Nat.testbit i b); [rewrite lit_npos in Tl by lia; now apply negb_true_iff in Tl|rewrite lit_pos in Tl by lia; exact Tl].
    - intros H [i x] Ix. apply combine_seq in Ix as [_ Hx]. rewrite Nat.sub_0_r in Hx. cbn [fst snd]. unfold amo_bits. rewrite sat_map. intros b Hb. apply in_seq in Hb.
      assert (X0 : x <> 0). { specialize (OK x (nth_error_In _ _ Hx)). unfold lit_ok in OK. lia. }
      destruct (lit_true v x) eqn:T; [|exists (- x); split; [now left|rewrite lit_neg, T by auto; reflexivity]].
      specialize (H i x b Hx ltac:(lia) T). eexists; split; [right; left; reflexivity|]. destruct (Nat.testbit i b).
      + rewrite lit_npos by lia. rewrite H. reflexivity.
      + rewrite lit_pos by lia. rewrite H. reflexivity.
  Qed.

  Lemma log_encodes m : 0 <= nv -> nv + Z.of_nat k <= m -> encodes nv m F (fun v => (count_true v is <= 1)%nat).
  Proof.
    intros NV LM. split; [lia| | |split].
    - unfold F. apply vars_flat. intros [i x] Ix. apply combine_seq in Ix as [_ Hx]. specialize (OK x (nth_error_In _ _ Hx)). cbn [fst snd]. intros c l Hc Hl.
      unfold amo_bits in Hc. apply in_map_iff in Hc as (b & <- & Hb). apply in_seq in Hb. unfold lit_ok in *.
      destruct Hl as [<-|[<-|[]]]; [rewrite Z.abs_opp; lia|]. destruct (Nat.testbit i b); lia.
    - intros v v' A H. rewrite <- (count_agree nv v v'); auto.
    - intros v H. apply count_one. intros i j x y Hx Hy Tx Ty. rewrite log_sat in H by auto.
      assert (Li : (i < length is)%nat) by (apply nth_error_Some; congruence). assert (Lj : (j < length is)%nat) by (apply nth_error_Some; congruence).
      apply (testbit_ext k); try lia. intros b Hb. assert (E1 := H i x b Hx Hb Tx). assert (E2 := H j y b Hy Hb Ty). rewrite E1 in E2.
      destruct (Nat.testbit i b), (Nat.testbit j b); auto; discriminate.
    - intros v H.
      assert (CH : exists p, forall i x, nth_error is i = Some x -> lit_true v x = true -> i = p).
      { apply count_one in H. destruct (existsb (lit_true v) is) eqn:E.
        - apply existsb_exists in E as (x & Ix & Tx). apply In_nth_error in Ix as (p & Ep). exists p. intros i y Hy Ty. exact (H i p y x Hy Ep Ty Tx).
        - exists 0%nat. intros i x Hx Tx. exfalso. assert (existsb (lit_true v) is = true) by (apply existsb_exists; exists x; split; auto; eapply nth_error_In; eauto). congruence. }
      destruct CH as (p & Hp).
      exists (fun x => if (nv <? x) && (x <=? nv + Z.of_nat k) then negb (Nat.testbit p (Z.to_nat (x - nv - 1))) else v x). split.
      + intros x Hx. destruct (Z.ltb_spec nv x), (Z.leb_spec x (nv + Z.of_nat k)); cbn; auto; lia.
      + rewrite log_sat by auto. intros i x b Hx Hb T. destruct (Z.ltb_spec nv (nv + 1 + Z.of_nat b)), (Z.leb_spec (nv + 1 + Z.of_nat b) (nv + Z.of_nat k)); cbn [andb]; try lia.
        replace (Z.to_nat (nv + 1 + Z.of_nat b - nv - 1)) with b by lia. f_equal. f_equal. symmetry. apply (Hp i x Hx). rewrite <- T. symmetry.
        apply (lit_agree nv); [apply OK; eapply nth_error_In; eauto|]. intros y Hy. destruct (Z.ltb_spec nv y); cbn; auto. lia.
  Qed.
End Log.

(** What the floating-point computation of the number of bits has to deliver. *)
Definition bits_ok (bits : nat -> nat) : Prop := forall n, (256 <= n)%nat -> (n <= 2 ^ bits n)%nat.

Lemma amo_encodes bits nv is F nv' : bits_ok bits -> 0 <= nv -> (forall x, In x is -> lit_ok nv x) -> atMostOne bits nv is = (F, nv') ->
  encodes nv nv' F (fun v => (count_true v is <= 1)%nat).
Proof.
  intros BO NV OK E. unfold atMostOne in E. destruct (Nat.leb_spec (length is) 1) as [L|L].
  - injection E as <- <-. apply encodes_nil; auto. intros v. unfold count_true. pose proof (filter_In (lit_true v)). assert (H2 : forall l : list Z, (length (filter (lit_true v) l) <= length l)%nat).
    { clear. induction l as [|a l IH]; cbn; [lia|]. destruct (lit_true v a); cbn; lia. } specialize (H2 is). lia.
  - destruct (Nat.ltb_spec (length is) 256) as [L2|L2].
    + injection E as <- <-. apply encodes_plain; auto; [now apply binomial_vars|]. intros v. apply binomial_sat. intros x Hx. specialize (OK x Hx). unfold lit_ok in OK. lia.
    + injection E as <- <-. apply log_encodes; auto.
      * assert (B := BO (length is) L2). destruct (bits (length is)) as [|k] eqn:EB; [cbn in B; lia|]. lia.
Qed.

(** ** At most K *)
Section AMK.
  Variables (K nv : Z).
  Hypothesis NV : 0 <= nv.
  Hypothesis KP : 0 <= K.
  Notation base := (amk_base K nv).
  Lemma base_S i : base (S i) = base i + K + 2.
  Proof. unfold amk_base. lia. Qed.
  Lemma base_pos i : nv + 1 <= base i.
  Proof. unfold amk_base. lia. Qed.

  Lemma step_sat v i x : x <> 0 -> satisfies v (amk_step K nv i x) <->
    (forall j, 0 <= j <= K -> v (base i + j) = true -> v (base (S i) + j) = true /\ (lit_true v x = true -> v (base (S i) + j + 1) = true)) /\ v (base (S i) + K + 1) = false.
  Proof.
    intros X. assert (B1 := base_pos i). assert (B2 := base_pos (S i)). unfold amk_step. rewrite sat_app, sat_flat, sat_one. split.
    - intros [H1 (l & [<-|[]] & H2)]. split; [|rewrite lit_npos in H2 by lia; now apply negb_true_iff].
      intros j Hj T. specialize (H1 (Z.to_nat j) ltac:(apply in_seq; lia)). rewrite Z2Nat.id in H1 by lia. rewrite sat_cons, sat_one in H1. destruct H1 as [(a & Ia & Ta) (b & Ib & Tb)]. split.
      + destruct Ib as [<-|[<-|[]]]; [rewrite lit_npos, T in Tb by lia; discriminate|rewrite lit_pos in Tb by lia; exact Tb].
      + intros Tx. destruct Ia as [<-|[<-|[<-|[]]]]; [rewrite lit_neg, Tx in Ta by lia; discriminate|rewrite lit_npos, T in Ta by lia; discriminate|rewrite lit_pos in Ta by lia; exact Ta].
    - intros [H1 H2]. split; [|exists (- (base (S i) + K + 1)); split; [now left|rewrite lit_npos, H2 by lia; reflexivity]].
      intros j Hj. apply in_seq in Hj. specialize (H1 (Z.of_nat j) ltac:(lia)). rewrite sat_cons, sat_one.
      destruct (v (base i + Z.of_nat j)) eqn:T.
      + destruct (H1 eq_refl) as [A B]. split.
        * destruct (lit_true v x) eqn:Tx; [eexists; split; [right; right; left; reflexivity|]; rewrite lit_pos by lia; auto|].
          exists (- x). split; [now left|]. rewrite lit_neg, Tx by lia. reflexivity.
        * eexists; split; [right; left; reflexivity|]. rewrite lit_pos by lia. auto.
      + split; (exists (- (base i + Z.of_nat j)); split; [cbn; tauto|rewrite lit_npos, T by lia; reflexivity]).
  Qed.

  Lemma amk_vars is : (forall x, In x is -> lit_ok nv x) -> vars_le (base (S (length is)) - 1) (fst (atMostK K nv is)).
  Proof.
    intros OK. unfold atMostK. cbn [fst]. apply vars_app.
    assert (MB : forall i, (i <= length is)%nat -> base i + K + 2 <= base (S (length is))). { intros i Hi. rewrite <- base_S. unfold amk_base. nia. }
    split.
    - apply vars_flat. intros [i x] Ix. apply combine_seq in Ix as [_ Hx]. rewrite Nat.sub_0_r in Hx. cbn [fst snd].
      assert (Li : (i < length is)%nat) by (apply nth_error_Some; congruence). assert (M1 := MB i ltac:(lia)). assert (M2 := MB (S i) ltac:(lia)).
      assert (B1 := base_pos i). assert (B2 := base_pos (S i)). specialize (OK x (nth_error_In _ _ Hx)).
      unfold amk_step. apply vars_app. unfold lit_ok in *. split.
      + apply vars_flat. intros j Hj. apply in_seq in Hj. apply vars_cons. split; [|apply vars_cons; split; [|apply vars_nil]]; intros l Hl; unfold lit_ok; cbn [In] in Hl;
          repeat (destruct Hl as [<-|Hl]; [lia|]); destruct Hl.
      + apply vars_cons. split; [|apply vars_nil]. intros l [<-|[]]. unfold lit_ok. lia.
    - apply vars_cons. split; [|apply vars_nil]. intros l [<-|[]]. assert (M := MB 0%nat ltac:(lia)). assert (B := base_pos 0%nat). unfold lit_ok. lia.
  Qed.

  Lemma amk_sat v is : (forall x, In x is -> lit_ok nv x) -> satisfies v (fst (atMostK K nv is)) <->
    v (base 0) = true /\ (forall i x, nth_error is i = Some x ->
    (forall j, 0 <= j <= K -> v (base i + j) = true -> v (base (S i) + j) = true /\ (lit_true v x = true -> v (base (S i) + j + 1) = true)) /\ v (base (S i) + K + 1) = false).
  Proof.
    intros OK. unfold atMostK. cbn [fst]. assert (B := base_pos 0%nat). rewrite sat_app, sat_flat, sat_one. split.
    - intros [H1 (l & [<-|[]] & H2)]. rewrite lit_pos in H2 by lia. split; auto. intros i x Hx. apply step_sat.
      + specialize (OK x (nth_error_In _ _ Hx)). unfold lit_ok in OK. lia.
      + specialize (H1 (i, x)). cbn [fst snd] in H1. apply H1. apply combine_seq. rewrite Nat.sub_0_r. split; auto. lia.
    - intros [H1 H2]. split; [|exists (base 0); split; [now left|rewrite lit_pos by lia; auto]]. intros [i x] Ix. apply combine_seq in Ix as [_ Hx]. rewrite Nat.sub_0_r in Hx. cbn [fst snd].
      apply step_sat; [|apply H2; auto]. specialize (OK x (nth_error_In _ _ Hx)). unfold lit_ok in OK. lia.
  Qed.

  Lemma count_firstn_S v is i x : nth_error is i = Some x -> count_true v (firstn (S i) is) = (count_true v (firstn i is) + if lit_true v x then 1 else 0)%nat.
  Proof.
    revert i. induction is as [|a is IH]; intros [|i] H; try discriminate.
    - injection H as ->. cbn [firstn]. rewrite count_cons. cbn. lia.
    - cbn [nth_error] in H. specialize (IH i H). rewrite (firstn_cons (S i)), (firstn_cons i), !count_cons, IH. lia.
  Qed.

  Lemma amk_encodes is : (forall x, In x is -> lit_ok nv x) ->
    encodes nv (base (S (length is)) - 1) (fst (atMostK K nv is)) (fun v => Z.of_nat (count_true v is) <= K).
  Proof.
    intros OK. assert (MB : forall i, (i <= length is)%nat -> base i + K + 2 <= base (S (length is))). { intros i Hi. rewrite <- base_S. unfold amk_base. nia. }
    split; [assert (M := MB 0%nat ltac:(lia)); assert (B := base_pos 0%nat); lia|now apply amk_vars| |split].
    - intros v v' A H. rewrite <- (count_agree nv v v'); auto.
    - intros v H. apply amk_sat in H as [H0 H]; auto.
      assert (G : forall i, (i <= length is)%nat -> Z.of_nat (count_true v (firstn i is)) <= K /\ v (base i + Z.of_nat (count_true v (firstn i is))) = true).
      { induction i as [|i IH]; intros Li; [cbn; rewrite Z.add_0_r; split; [lia|auto]|].
        destruct (IH ltac:(lia)) as [C1 C2]. destruct (nth_error is i) as [x|] eqn:Hx; [|apply nth_error_None in Hx; lia].
        destruct (H i x Hx) as [S1 S2]. destruct (S1 (Z.of_nat (count_true v (firstn i is))) (conj (Nat2Z.is_nonneg _) C1) C2) as [A B]. rewrite (count_firstn_S v is i x Hx).
        destruct (lit_true v x).
        - specialize (B eq_refl). rewrite Nat2Z.inj_add. assert (NE : Z.of_nat (count_true v (firstn i is)) <> K). { intros Q. rewrite Q, S2 in B. discriminate. }
          split; [lia|]. rewrite Z.add_assoc. exact B.
        - rewrite Nat.add_0_r. split; auto. }
      specialize (G (length is) (le_n _)). rewrite firstn_all in G. apply G.
    - intros v H.
      (* block i, counter j: true if at least j of the first i literals are true *)
      set (w := fun x => if (nv <? x) && (x <? base (S (length is))) then
        let i := (x - nv - 1) / (K + 2) in let j := (x - nv - 1) mod (K + 2) in j <=? Z.of_nat (count_true v (firstn (Z.to_nat i) is)) else v x).
      assert (W : forall i j, (i <= length is)%nat -> 0 <= j < K + 2 -> w (base i + j) = (j <=? Z.of_nat (count_true v (firstn i is)))).
      { intros i j Li Lj. unfold w. assert (M := MB i Li). assert (B := base_pos i). destruct (Z.ltb_spec nv (base i + j)), (Z.ltb_spec (base i + j) (base (S (length is)))); cbn [andb]; try lia.
        assert (EB : base i + j - nv - 1 = Z.of_nat i * (K + 2) + j) by (unfold amk_base; lia). rewrite EB.
        rewrite Z.div_add_l by lia. rewrite Z.div_small by lia. rewrite Z.add_0_r, Nat2Z.id. rewrite Z.add_comm, Z.mod_add by lia. rewrite Z.mod_small by lia. reflexivity. }
      assert (AG : forall x, x <= nv \/ base (S (length is)) - 1 < x -> w x = v x). { intros x Hx. unfold w. destruct (Z.ltb_spec nv x), (Z.ltb_spec x (base (S (length is)))); cbn; auto; lia. }
      exists w. split; auto. apply amk_sat; auto. split.
      + assert (E := W 0%nat 0 ltac:(lia) ltac:(lia)). rewrite Z.add_0_r in E. rewrite E. cbn. reflexivity.
      + intros i x Hx. assert (Li : (i < length is)%nat) by (apply nth_error_Some; congruence).
        assert (TX : lit_true w x = lit_true v x). { apply (lit_agree nv); [apply OK; eapply nth_error_In; eauto|]. intros y Hy. apply AG. lia. }
        assert (CS := count_firstn_S v is i x Hx). rewrite TX. split.
        * intros j Hj T. rewrite W in T by lia. apply Z.leb_le in T. rewrite W by lia. rewrite <- Z.add_assoc. rewrite W by lia. rewrite CS. split; [apply Z.leb_le; lia|]. intros Tx. rewrite Tx. apply Z.leb_le. lia.
        * rewrite <- Z.add_assoc. rewrite W by lia. apply Z.leb_gt.
          assert (MC : forall l m, (count_true v (firstn m l) <= count_true v l)%nat). { intros l. induction l as [|a l IH]; intros [|m]; cbn [firstn]; rewrite ?count_cons; try (cbn; lia). specialize (IH m). lia. }
          specialize (MC is (S i)). lia.
  Qed.
End AMK.
