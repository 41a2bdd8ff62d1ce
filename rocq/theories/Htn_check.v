(** A decidable sufficient condition for well-formed problems, used for the examples. *)
From Verif Require Import Base Htn_problem Htn_spec.

Definition all_lt (n : nat) (l : list nat) : bool := forallb (fun x => Nat.ltb x n) l.
Definition method_check (P : problem) (m : method) : bool :=
  match nth_error (p_prim P) (m_task m) with Some false => true | _ => false end && all_lt (length (p_prim P)) (m_subs m) &&
  negb (Nat.eqb (length (m_subs m)) 0) && forallb (fun e => Nat.ltb (fst e) (snd e) && Nat.ltb (snd e) (length (m_subs m))) (m_ord m).
Definition problem_check (P : problem) : bool :=
  Nat.eqb (length (p_prec P)) (length (p_cost P)) && Nat.eqb (length (p_add P)) (length (p_cost P)) && Nat.eqb (length (p_del P)) (length (p_cost P)) &&
  forallb (fun t => Nat.ltb t (length (p_cost P)) || negb (nth t (p_prim P) false)) (seq 0 (length (p_prim P))) &&
  forallb (all_lt (p_nfacts P)) (p_prec P ++ p_add P ++ p_del P) && all_lt (p_nfacts P) (p_s0 P) && all_lt (p_nfacts P) (p_goal P) &&
  match nth_error (p_prim P) (p_init P) with Some false => true | _ => false end && forallb (method_check P) (p_methods P).

Lemma all_lt_in n l : all_lt n l = true -> forall x, In x l -> x < n.
Proof. unfold all_lt. rewrite forallb_forall. intros H x Hx. apply Nat.ltb_lt. auto. Qed.

Lemma method_check_ok P m : method_check P m = true -> wf_method P m.
Proof.
  unfold method_check. rewrite !andb_true_iff. intros [[[A B] C] D]. split.
  - destruct (nth_error (p_prim P) (m_task m)) as [[|]|]; congruence.
  - now apply all_lt_in.
  - intros E. rewrite E in C. discriminate.
  - intros j k H. rewrite forallb_forall in D. apply D in H. rewrite andb_true_iff, !Nat.ltb_lt in H. cbn in H. lia.
  - intros j H. assert (X : forall a b, m_lt m a b -> a < b); [|apply X in H; lia]. clear j H. induction 1 as [a b I|a b c _ X _ Y]; [|lia].
    rewrite forallb_forall in D. apply D in I. rewrite andb_true_iff, !Nat.ltb_lt in I. apply I.
Qed.

Lemma problem_check_ok P : problem_check P = true -> wf_problem P.
Proof.
  unfold problem_check. rewrite !andb_true_iff. intros [[[[[[[[A B] C] D] E] F] G] H] I]. split; try (now apply Nat.eqb_eq); try (now apply all_lt_in).
  - intros t Ht. rewrite forallb_forall in D. assert (L : t < length (p_prim P)) by (apply nth_error_Some; congruence). specialize (D t). rewrite (nth_error_nth _ _ _ Ht) in D. cbn in D.
    rewrite orb_false_r in D. apply Nat.ltb_lt, D, in_seq. lia.
  - intros l f Hl. rewrite forallb_forall in E. apply all_lt_in, E. rewrite !in_app_iff. tauto.
  - destruct (nth_error (p_prim P) (p_init P)) as [[|]|]; congruence.
  - intros m Hm. rewrite forallb_forall in I. apply method_check_ok. auto.
Qed.
