(** Proofs about Comb_model.v. *)
From Coq Require Import Sorted.
From Verif Require Import Base Comb_model Comb_spec.

(** *** One step *)
Lemma get_mid {A} (p : list A) x t : get (p ++ x :: t) (length p) = Some x.
Proof. unfold get. rewrite nth_error_app2, Nat.sub_diag by lia. reflexivity. Qed.
Lemma set_mid {A} (p : list A) x t y : set (p ++ x :: t) (length p) y = Some (p ++ y :: t).
Proof. induction p as [|a p IH]; cbn; auto. now rewrite IH. Qed.

Lemma inc_max m : forall p t h, m <= h ->
  inc_loop (p ++ seq (h - m) m ++ t) (length p + m) h = inc_loop (p ++ seq (S (h - m)) m ++ t) (length p) (h - m).
Proof.
  induction m as [|m IH]; intros p t h L.
  - cbn [seq app]. now rewrite Nat.add_0_r, Nat.sub_0_r.
  - rewrite Nat.add_succ_r. cbn [inc_loop].
    assert (E : p ++ seq (h - S m) (S m) ++ t = (p ++ seq (h - S m) m) ++ (h - 1) :: t).
    { rewrite seq_S, <- !app_assoc. cbn [app]. now replace (h - S m + m) with (h - 1) by lia. }
    rewrite E. assert (LL : length (p ++ seq (h - S m) m) = length p + m) by (rewrite app_length, seq_length; lia).
    rewrite <- LL. rewrite get_mid. cbn [obind]. rewrite set_mid. cbn [obind].
    destruct (Nat.ltb_spec (S (h - 1)) h) as [X|X]; [lia|].
    rewrite LL. assert (IH' := IH p (S (h - 1) :: t) (h - 1) ltac:(lia)). replace (h - 1 - m) with (h - S m) in IH' by lia.
    rewrite <- app_assoc. rewrite IH'. rewrite (seq_S m (S (h - S m))), <- !app_assoc. cbn [app]. replace (S (h - S m) + m) with (S (h - 1)) by lia. reflexivity.
Qed.

Lemma fill_ok t : forall p w, fill_loop (p ++ w :: t) (S (length p)) (length t) = Some (p ++ seq w (S (length t))).
Proof.
  induction t as [|x t IH]; intros p w; cbn [length fill_loop]; [reflexivity|].
  rewrite get_mid. cbn [obind]. assert (E : p ++ w :: x :: t = (p ++ [w]) ++ x :: t) by now rewrite <- app_assoc. rewrite E.
  assert (L : S (length p) = length (p ++ [w])) by (rewrite app_length; cbn; lia). rewrite L, set_mid. cbn [obind]. rewrite IH. f_equal.
  rewrite <- app_assoc. cbn [app]. reflexivity.
Qed.

(** The next combination *)
Inductive succ (n : nat) : list nat -> list nat -> Prop :=
| succ_intro : forall p v m, S v < n - m -> succ n (p ++ v :: seq (n - m) m) (p ++ seq (S v) (S m)).

Lemma next_succ n k a b : length a = k -> succ n a b -> next_comb n k a = Some b.
Proof.
  intros L S0. destruct S0 as [p v m H]. unfold next_comb. rewrite app_length in L. cbn [length] in L. rewrite seq_length in L. rewrite <- L.
  assert (I := inc_max m (p ++ [v]) [] n ltac:(lia)). rewrite !app_nil_r, <- !app_assoc, app_length in I. cbn [app length] in I.
  replace (length p + S m) with (length p + 1 + m) by lia. rewrite I. replace (length p + 1) with (S (length p)) by lia. cbn [inc_loop].
  rewrite get_mid. cbn [obind]. rewrite set_mid. cbn [obind]. destruct (Nat.ltb_spec (S v) (n - m)) as [_|X]; [|lia]. cbn [obind].
  assert (F := fill_ok (seq (S (n - m)) m) p (S v)). rewrite seq_length in F. replace (S (length p) + m - S (length p)) with m by lia. exact F.
Qed.

Lemma next_last n k : 0 < k -> k <= n -> next_comb n k (seq (n - k) k) = None.
Proof.
  intros K L. unfold next_comb. assert (I := inc_max k [] [] n L). rewrite !app_nil_r in I. cbn [app length] in I. change (0 + k) with k in I. rewrite I. cbn [inc_loop obind].
  rewrite Nat.sub_0_r. destruct k; [lia|]. reflexivity.
Qed.

(** *** The list of all combinations *)
Fixpoint combs (c k lo : nat) : list (list nat) :=
  match k, c with
  | O, _ => [[]]
  | S _, O => []
  | S k', S c' => map (cons lo) (combs c' k' (S lo)) ++ combs c' k (S lo)
  end.

Lemma combs_length c : forall k lo, length (combs c k lo) = binom c k.
Proof. induction c as [|c IH]; intros [|k] lo; cbn [combs binom]; auto. rewrite app_length, map_length, !IH. reflexivity. Qed.

Lemma combs_in c : forall k lo l, In l (combs c k lo) <-> length l = k /\ StronglySorted lt l /\ Forall (fun x => lo <= x < lo + c) l.
Proof.
  induction c as [|c IH]; intros [|k] lo l; cbn [combs].
  - split; [intros [<-|[]]; repeat constructor|]. intros (L & _). destruct l; [now left|discriminate].
  - split; [intros []|]. intros (L & _ & F). destruct l as [|x l]; [discriminate|]. inversion F; subst. lia.
  - split; [intros [<-|[]]; repeat constructor|]. intros (L & _). destruct l; [now left|discriminate].
  - rewrite in_app_iff, in_map_iff. split.
    + intros [(r & <- & H)|H].
      * apply IH in H as (L & S0 & F). split; [cbn; congruence|]. split.
        -- constructor; auto. eapply Forall_impl; [|exact F]. cbn. lia.
        -- constructor; [lia|]. eapply Forall_impl; [|exact F]. cbn. lia.
      * apply IH in H as (L & S0 & F). split; auto. split; auto. eapply Forall_impl; [|exact F]. cbn. lia.
    + intros (L & S0 & F). destruct l as [|x l]; [discriminate|]. inversion S0 as [|? ? S1 F1]; subst. inversion F as [|? ? B F2]; subst.
      rewrite Forall_forall in F1, F2. destruct (Nat.eq_dec x lo) as [->|N].
      * left. exists l. split; auto. apply IH. split; [cbn in L; lia|]. split; auto. apply Forall_forall. intros y Hy. specialize (F1 y Hy). specialize (F2 y Hy). cbn in *. lia.
      * right. apply IH. split; auto. split; auto. apply Forall_forall. intros y [<-|Hy]; [lia|]. specialize (F1 y Hy). specialize (F2 y Hy). cbn in *. lia.
Qed.

Lemma combs_nil c k lo : c < k -> combs c k lo = [].
Proof.
  revert k lo. induction c as [|c IH]; intros [|k] lo L; try lia; cbn [combs]; auto. rewrite !IH by lia. reflexivity.
Qed.

(** First and last combination *)
Lemma last_app {A} (l m : list A) d : m <> [] -> last (l ++ m) d = last m d.
Proof. intros N. induction l as [|a l IH]; cbn [app]; auto. destruct (l ++ m) eqn:E; [|rewrite <- IH; reflexivity]. destruct l; cbn in E; congruence. Qed.
Lemma last_map {A B} (f : A -> B) l d e : l <> [] -> last (map f l) e = f (last l d).
Proof. induction l as [|a l IH]; [congruence|]. intros _. destruct l as [|b l]; [reflexivity|]. cbn [map]. change (last (f a :: map f (b :: l)) e = f (last (a :: b :: l) d)). 
  change (last (map f (b :: l)) e = f (last (b :: l) d)). apply IH. discriminate. Qed.

Lemma combs_first c : forall k lo, k <= c -> exists r, combs c k lo = seq lo k :: r.
Proof.
  induction c as [|c IH]; intros [|k] lo L; try lia; cbn [combs]; [now exists []..|].
  destruct (IH k (S lo) ltac:(lia)) as (r & E). rewrite E. cbn. eauto.
Qed.
Lemma combs_last c : forall k lo d, k <= c -> last (combs c k lo) d = seq (lo + c - k) k.
Proof.
  induction c as [|c IH]; intros [|k] lo d L; try lia; cbn [combs]; auto.
  destruct (Nat.le_gt_cases (S k) c) as [L2|L2].
  - rewrite last_app by (destruct (combs_first c (S k) (S lo) L2) as (r & ->); discriminate). rewrite IH by auto. f_equal. lia.
  - rewrite (combs_nil c (S k) (S lo)) by lia. rewrite app_nil_r. rewrite (last_map _ _ []) by (destruct (combs_first c k (S lo) ltac:(lia)) as (r & ->); discriminate).
    rewrite IH by lia. assert (c = k) as -> by lia. cbn [seq]. f_equal; [lia|]. f_equal. lia.
Qed.

(** Each combination is followed by the next one. *)
Fixpoint chain (R : list nat -> list nat -> Prop) (l : list (list nat)) : Prop :=
  match l with
  | a :: (b :: _) as r => R a b /\ chain R r
  | _ => True
  end.
Lemma chain_app (R : list nat -> list nat -> Prop) l m d : l <> [] -> chain R l -> chain R m -> (forall b r, m = b :: r -> R (last l d) b) -> chain R (l ++ m).
Proof.
  induction l as [|a l IH]; [congruence|]. intros _ C M B. destruct l as [|b l].
  - cbn [app]. destruct m as [|b m]; [exact I|]. split; auto. apply (B b m eq_refl).
  - change (R a b /\ chain R ((b :: l) ++ m)). split; [apply C|]. apply IH; auto; [discriminate|apply C].
Qed.
Lemma chain_map (R : list nat -> list nat -> Prop) (f : list nat -> list nat) l : (forall a b, R a b -> R (f a) (f b)) -> chain R l -> chain R (map f l).
Proof. intros H. induction l as [|a [|b l] IH]; cbn; auto. intros [A B]. split; auto. apply IH. exact B. Qed.

Lemma combs_chain c : forall k lo n, n = lo + c -> chain (succ n) (combs c k lo).
Proof.
  induction c as [|c IH]; intros [|k] lo n E; cbn [combs]; try exact I.
  destruct (Nat.le_gt_cases k c) as [L|L].
  2: { rewrite !combs_nil by lia. exact I. }
  apply (chain_app _ _ _ []).
  - destruct (combs_first c k (S lo) L) as (r & ->). discriminate.
  - apply chain_map; [|apply IH; lia]. intros a b [p v m H]. apply (succ_intro n (lo :: p) v m H).
  - apply IH. lia.
  - intros b r EB. rewrite (last_map _ _ []) by (destruct (combs_first c k (S lo) L) as (q & ->); discriminate). rewrite combs_last by auto.
    destruct (Nat.le_gt_cases (S k) c) as [L2|L2]; [|rewrite combs_nil in EB by lia; discriminate]. destruct (combs_first c (S k) (S lo) L2) as (q & Eq). rewrite Eq in EB. injection EB as <- _.
    replace (S lo + c - k) with (n - k) by lia. apply (succ_intro n [] lo k). lia.
Qed.

Lemma chain_nth (R : list nat -> list nat -> Prop) l : chain R l -> forall i a b, nth_error l i = Some a -> nth_error l (S i) = Some b -> R a b.
Proof.
  induction l as [|x [|y l] IH]; intros C i a b A B.
  - destruct i; discriminate.
  - destruct i as [|i]; [discriminate|]. destruct i; discriminate.
  - destruct i as [|i]; [cbn in A, B; injection A as <-; injection B as <-; apply C|]. apply (IH (proj2 C) i); auto.
Qed.

Lemma ofold_app {A B} (f : A -> B -> option A) l m : forall a, ofold f (l ++ m) a = x <- ofold f l a ;; ofold f m x.
Proof. induction l as [|b l IH]; intros a; cbn; auto. destruct (f a b); cbn; auto. Qed.

Lemma combination_nth n k i : k <= n -> i < binom n k -> combination n k i = nth_error (combs n k 0) i.
Proof.
  intros L. induction i as [|i IH]; intros H.
  - destruct (combs_first n k 0 L) as (r & ->). reflexivity.
  - unfold combination. rewrite seq_S, ofold_app. fold (combination n k i). rewrite IH by lia.
    destruct (nth_error (combs n k 0) i) as [a|] eqn:Ea; [|apply nth_error_None in Ea; rewrite combs_length in Ea; lia].
    destruct (nth_error (combs n k 0) (S i)) as [b|] eqn:Eb; [|apply nth_error_None in Eb; rewrite combs_length in Eb; lia].
    cbn [obind ofold]. assert (S0 := chain_nth _ _ (combs_chain n k 0 n eq_refl) i a b Ea Eb).
    rewrite (next_succ n k a b); auto. apply nth_error_In, combs_in in Ea. apply Ea.
Qed.

Lemma nth_last {A} (l : list A) d : l <> [] -> nth_error l (length l - 1) = Some (last l d).
Proof.
  induction l as [|a l IH]; [congruence|]. intros _. destruct l as [|b l]; [reflexivity|]. change (last (a :: b :: l) d) with (last (b :: l) d).
  rewrite <- IH by discriminate. cbn [length]. replace (S (S (length l)) - 1) with (S (S (length l) - 1)) by lia. reflexivity.
Qed.

Lemma combination_end n k : 0 < k -> k <= n -> combination n k (binom n k) = None.
Proof.
  intros K L. destruct (combs_first n k 0 L) as (r & E). assert (LN := combs_length n k 0). rewrite E in LN. cbn in LN. rewrite <- LN.
  unfold combination. rewrite seq_S, ofold_app. fold (combination n k (length r)). rewrite combination_nth by lia.
  assert (X := nth_last (combs n k 0) [] ltac:(rewrite E; discriminate)). rewrite E in X at 2. cbn [length] in X. replace (S (length r) - 1) with (length r) in X by lia. rewrite X.
  cbn [obind ofold]. rewrite combs_last by auto. change (0 + n - k) with (n - k). now rewrite next_last.
Qed.

(** *** Lexicographic order *)
Lemma lex_app p a b : lex a b -> lex (p ++ a) (p ++ b).
Proof. induction p; cbn; auto. intros. apply lex_eq. auto. Qed.
Lemma succ_lex n a b : succ n a b -> lex a b.
Proof. intros [p v m H]. apply lex_app. cbn [seq]. apply lex_lt. lia. Qed.
Lemma lex_trans a b c : lex a b -> lex b c -> lex a c.
Proof.
  intros H. revert c. induction H as [x y l m L|x l m H IH]; intros c H2; inversion H2 as [x' z l' q L'|x' l' q H']; subst.
  - apply lex_lt. lia.
  - now apply lex_lt.
  - now apply lex_lt.
  - apply lex_eq. auto.
Qed.
Lemma lex_irrefl a : ~ lex a a.
Proof. induction a as [|x a IH]; intros H; inversion H; subst; [lia|auto]. Qed.

Lemma chain_lex l n : chain (succ n) l -> forall i j a b, i < j -> nth_error l i = Some a -> nth_error l j = Some b -> lex a b.
Proof.
  intros C i j. induction j as [|j IH]; intros a b L A B; [lia|]. destruct (Nat.eq_dec i j) as [->|N].
  - eapply succ_lex, (chain_nth _ _ C j); eauto.
  - destruct (nth_error l j) as [c|] eqn:E; [|exfalso; apply nth_error_None in E; assert (S j < length l) by (apply nth_error_Some; congruence); lia].
    eapply lex_trans; [apply (IH a c); auto; lia|]. eapply succ_lex, (chain_nth _ _ C j); eauto.
Qed.

(** *** Binomial coefficients *)
Lemma binom_0 n : binom n 0 = 1.
Proof. destruct n; reflexivity. Qed.
Lemma binom_gt n k : n < k -> binom n k = 0.
Proof. revert k. induction n as [|n IH]; intros [|k] L; try lia; cbn [binom]; auto. now rewrite !IH by lia. Qed.
Lemma binom_diag n : binom n n = 1.
Proof. induction n as [|n IH]; cbn [binom]; auto. rewrite IH, binom_gt by lia. lia. Qed.
Lemma binom_pos n k : k <= n -> 0 < binom n k.
Proof. revert k. induction n as [|n IH]; intros [|k] L; try lia; cbn [binom]; try lia. specialize (IH k ltac:(lia)). lia. Qed.
(** (i + 1) C(n, i + 1) = (n - i) C(n, i) *)
Lemma binom_step n : forall i, i <= n -> S i * binom n (S i) = (n - i) * binom n i.
Proof.
  induction n as [|n IH]; intros i L; [replace i with 0 by lia; reflexivity|].
  cbn [binom]. destruct i as [|i].
  - rewrite binom_0. specialize (IH 0 ltac:(lia)). rewrite binom_0 in IH. lia.
  - destruct (Nat.eq_dec i n) as [->|N].
    + rewrite (binom_gt n (S n)), (binom_gt n (S (S n))) by lia. lia.
    + assert (A := IH i ltac:(lia)). assert (B := IH (S i) ltac:(lia)). replace (S n - S i) with (n - i) by lia.
      replace (n - S i) with (n - i - 1) in B by lia. remember (n - i) as w. assert (1 <= w) by lia. destruct w as [|w]; [lia|]. replace (S w - 1) with w in B by lia.
      remember (binom n i) as x. remember (binom n (S i)) as y. remember (binom n (S (S i))) as z. nia.
Qed.

Local Open Scope Z_scope.

Lemma bin_loop_some n k b : (k <= n)%nat -> bin_loop (Z.of_nat n) k = Some b -> b = Z.of_nat (binom n k).
Proof.
  revert b. induction k as [|k IH]; intros b L H; unfold bin_loop in H; [cbn in H; injection H as <-; now rewrite binom_0|].
  rewrite seq_S, ofold_app in H. fold (bin_loop (Z.of_nat n) k) in H. destruct (bin_loop (Z.of_nat n) k) as [c|] eqn:E; [|discriminate]. cbn [obind ofold] in H.
  destruct (Z.leb_spec (c * (Z.of_nat n - Z.of_nat (1 + k) + 1)) long_max); [|discriminate]. cbn [obind] in H. match type of H with Some ?a = Some b => assert (b = a) by congruence; subst b end.
  rewrite (IH c ltac:(lia) eq_refl). assert (X := binom_step n k ltac:(lia)).
  replace (Z.of_nat (binom n k) * (Z.of_nat n - Z.of_nat (1 + k) + 1)) with (Z.of_nat (binom n (S k)) * Z.of_nat (1 + k)); [apply Z.div_mul; lia|].
  replace (Z.of_nat n - Z.of_nat (1 + k) + 1) with (Z.of_nat (n - k)) by lia. rewrite <- !Nat2Z.inj_mul. f_equal. lia.
Qed.
Lemma bin_loop_ok n k : (k <= n)%nat -> (forall i, (i < k)%nat -> Z.of_nat (S i * binom n (S i)) <= long_max) -> exists b, bin_loop (Z.of_nat n) k = Some b.
Proof.
  induction k as [|k IH]; intros L B; [cbn; eauto|]. destruct IH as (c & E); [lia|intros; apply B; lia|].
  unfold bin_loop. rewrite seq_S, ofold_app. fold (bin_loop (Z.of_nat n) k). rewrite E. cbn [obind ofold].
  apply bin_loop_some in E as ->; [|lia]. assert (X := binom_step n k ltac:(lia)). specialize (B k ltac:(lia)).
  replace (Z.of_nat (binom n k) * (Z.of_nat n - Z.of_nat (1 + k) + 1)) with (Z.of_nat (S k * binom n (S k))).
  - destruct (Z.leb_spec (Z.of_nat (S k * binom n (S k))) long_max); [cbn; eauto|lia].
  - replace (Z.of_nat n - Z.of_nat (1 + k) + 1) with (Z.of_nat (n - k)) by lia. rewrite <- Nat2Z.inj_mul. f_equal. lia.
Qed.
