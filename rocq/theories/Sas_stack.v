(** Translation to SAS+: the written operators as steps on the stack of tasks. *)
From Verif Require Import Base Htn_problem Htn_spec To_spec Sas_model Sas_spec Sas_proof Sas_sim Sas_act Sas_rep.

(** ** Written operators *)

Lemma wo_app ps es c w : (forall i d e, In (i, d) ps -> In (i, e) ps -> d = e) -> (fd_applicable w (write_op ps es c) <-> forall p, In p ps -> holds w p).
Proof.
  intros F. unfold fd_applicable, write_op. cbn [f_prev f_eff]. split.
  - intros [A B] [i d] I. destruct (existsb (fun e => i =? fst e) es) eqn:X.
    + apply existsb_exists in X as ([i' d'] & I' & X). cbn in X. apply Nat.eqb_eq in X. subst i'. destruct (last_val i ps None) as [y|] eqn:Q; [|exfalso; eapply last_val_none; eauto].
      assert (Iy := last_val_in _ _ _ Q). rewrite (F i d y I Iy). apply (B i y d'). apply in_map_iff. exists (i, d'). cbn. rewrite Q. auto.
    + apply A. apply filter_In. split; auto. cbn. now rewrite X.
  - intros H. split.
    + intros p I. apply filter_In in I as [I _]. auto.
    + intros v x d I. apply in_map_iff in I as ([i d'] & E & I). cbn in E. injection E as <- Q <-. apply last_val_in in Q. auto.
Qed.
Lemma wo_res ps es c w : fd_result w (write_op ps es c) = fassign es w.
Proof.
  unfold fd_result, write_op, fassign. cbn [f_eff]. generalize (fun x => last_val x ps None) as g. intros g. revert w. induction es as [|e es IH]; intros w; cbn; auto.
Qed.

Lemma assign_app1 v : forall r i d, i < length v -> assign (v ++ r) i d = assign v i d ++ r.
Proof. induction v as [|x v IH]; intros r [|i] d L; cbn in *; try lia; auto. rewrite IH by lia. auto. Qed.
Lemma assign_app2 v : forall r i d, assign (v ++ r) (length v + i) d = v ++ assign r i d.
Proof. induction v as [|x v IH]; intros r i d; cbn; auto. now rewrite IH. Qed.
Lemma assign_at v x r n d : length v = n -> assign (v ++ x :: r) n d = v ++ d :: r.
Proof. intros <-. rewrite <- (Nat.add_0_r (length v)), assign_app2. reflexivity. Qed.
Lemma fassign_front ee : forall v r, (forall i d, In (i, d) ee -> i < length v) -> fassign ee (v ++ r) = fassign ee v ++ r.
Proof.
  induction ee as [|[i d] ee IH]; intros v r H; [reflexivity|]. unfold fassign. cbn [fold_left fst snd]. fold (fassign ee (assign (v ++ r) i d)). fold (fassign ee (assign v i d)).
  rewrite assign_app1 by (eapply H; left; reflexivity). apply IH. intros k e I. rewrite assign_length. eapply H. right. exact I.
Qed.
Definition shift (n : nat) (e : nat * nat) : nat * nat := (n + fst e, snd e).
Lemma fassign_back es : forall v r, fassign (map (shift (length v)) es) (v ++ r) = v ++ fassign es r.
Proof.
  induction es as [|[i d] es IH]; intros v r; [reflexivity|]. unfold fassign. cbn [map fold_left fst snd shift]. rewrite assign_app2. apply IH.
Qed.
Lemma fassign_run l : forall a x y z, length x = a -> length y = length l -> fassign (combine (seq a (length l)) l) (x ++ y ++ z) = x ++ l ++ z.
Proof.
  induction l as [|u l IH]; intros a x y z Lx Ly; destruct y as [|q y]; try discriminate; [reflexivity|]. cbn [length seq combine]. unfold fassign. cbn [fold_left fst snd].
  fold (fassign (combine (seq (S a) (length l)) l) (assign (x ++ (q :: y) ++ z) a u)). rewrite <- Lx at 2. rewrite <- (Nat.add_0_r (length x)), assign_app2. cbn [app assign].
  assert (X := IH (S a) (x ++ [u]) y z). rewrite <- !app_assoc in X. cbn [app] in X. apply X; [rewrite app_length; cbn; lia|]. cbn in Ly. lia.
Qed.
Lemma holds_front v r i d : i < length v -> (holds (v ++ r) (i, d) <-> holds v (i, d)).
Proof. intros L. unfold holds. cbn [fst snd]. now rewrite nth_error_app1. Qed.
Lemma holds_back v r i d : holds (v ++ r) (length v + i, d) <-> holds r (i, d).
Proof. unfold holds. cbn [fst snd]. rewrite nth_error_app2 by lia. now replace (length v + i - length v) with i by lia. Qed.

(** ** The values of the stack variables *)

Definition stv (pgb : nat) (k : list nat) : list nat := length k :: map S (rev k) ++ repeat 0 (pgb - length k).

Lemma stv_top pgb k j t : j < pgb -> length k <= pgb -> (holds (stv pgb k) (0, 1 + j) /\ holds (stv pgb k) (1 + j, 1 + t) <-> exists k0, k = t :: k0 /\ length k0 = j).
Proof.
  intros Lj Lk. unfold holds, stv. cbn [fst snd nth_error Nat.add]. split.
  - intros [[= E] H]. destruct k as [|u k0]; [discriminate|]. cbn in E. injection E as E. exists k0. split; auto. f_equal. cbn [rev] in H. rewrite map_app, <- app_assoc, nth_error_app2 in H by (rewrite map_length, rev_length; lia).
    rewrite map_length, rev_length, E, Nat.sub_diag in H. cbn in H. congruence.
  - intros (k0 & -> & <-). split; [reflexivity|]. cbn [rev]. rewrite map_app, <- app_assoc, nth_error_app2 by (rewrite map_length, rev_length; lia). now rewrite map_length, rev_length, Nat.sub_diag.
Qed.
Lemma stv_zero pgb k : holds (stv pgb k) (0, 0) <-> k = [].
Proof. unfold holds, stv. cbn. destruct k; cbn; split; congruence. Qed.
Lemma repeat_split {A} (x : A) n m : m <= n -> repeat x n = repeat x m ++ repeat x (n - m).
Proof. intros L. rewrite <- repeat_app. f_equal. lia. Qed.

Lemma stv_pop pgb t k : length k < pgb -> fassign [(1 + length k, 0); (0, length k)] (stv pgb (t :: k)) = stv pgb k.
Proof.
  intros L. unfold stv, fassign. cbn [fold_left fst snd Nat.add assign length rev]. f_equal. rewrite map_app, <- app_assoc. cbn [map app]. rewrite assign_at by (rewrite map_length; apply rev_length). f_equal.
  replace (pgb - length k) with (S (pgb - S (length k))) by lia. reflexivity.
Qed.
Lemma stv_pop' pgb t k : length k < pgb -> fassign [(0, length k); (1 + length k, 0)] (stv pgb (t :: k)) = stv pgb k.
Proof. intros L. rewrite <- (stv_pop pgb t k L). reflexivity. Qed.

(** The effects on the stack of a method with the further subtasks [rest]. *)
Definition push (j : nat) (rest : list nat) : list (nat * nat) :=
  match length rest with
  | 0 => [(0, j); (1 + j, 0)]
  | 1 => map (fun t => (1 + j, 1 + t)) (firstn 1 (rev rest))
  | _ => combine (seq (1 + j) (length rest)) (map S (rev rest)) ++ [(0, j + length rest)]
  end.
Lemma push_cells pgb t k rest : length k < pgb -> length rest + length k <= pgb -> rest <> [] ->
  fassign (combine (seq (1 + length k) (length rest)) (map S (rev rest))) (stv pgb (t :: k)) = (1 + length k) :: map S (rev (rest ++ k)) ++ repeat 0 (pgb - length (rest ++ k)).
Proof.
  intros L1 L2 NE. unfold stv. cbn [length rev]. rewrite rev_app_distr, !map_app, <- !app_assoc. cbn [map app]. destruct rest as [|r0 rest]; [congruence|]. set (R := r0 :: rest) in *. assert (LR : 1 <= length R) by (cbn; lia).
  rewrite (repeat_split 0 (pgb - S (length k)) (length R - 1)) by lia.
  assert (X := fassign_run (map S (rev R)) (1 + length k) ((1 + length k) :: map S (rev k)) (S t :: repeat 0 (length R - 1)) (repeat 0 (pgb - S (length k) - (length R - 1)))).
  rewrite map_length, rev_length in X. cbn [length app] in X. rewrite map_length, rev_length, repeat_length in X. cbn [Nat.add] in *. rewrite X by lia. rewrite app_length. f_equal. f_equal. f_equal. f_equal. lia.
Qed.
Lemma stv_push pgb t k rest : length k < pgb -> length rest + length k <= pgb -> fassign (push (length k) rest) (stv pgb (t :: k)) = stv pgb (rest ++ k).
Proof.
  intros L1 L2. unfold push. destruct rest as [|r0 [|r1 rest]]; cbn [length].
  - now apply stv_pop'.
  - cbn [rev app firstn map]. assert (X := push_cells pgb t k [r0] L1 L2 ltac:(discriminate)). cbn [length seq rev app map combine Nat.add] in *. rewrite X. reflexivity.
  - rewrite fassign_app. assert (X := push_cells pgb t k (r0 :: r1 :: rest) L1 L2 ltac:(discriminate)). cbn [length] in X. rewrite X. unfold fassign. cbn [fold_left fst snd assign]. unfold stv. f_equal. rewrite app_length. cbn. lia.
Qed.
