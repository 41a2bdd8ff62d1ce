(** Parallel sequences of tasks as task networks. *)
From Coq Require Import Relations.
From Verif Require Import Base Htn_problem Htn_spec Htn_sem Htn_iso Push_sys Pseq_spec.

(** Sequences; the first task of the list is executed first. [o] are the orderings between sequences. *)
Definition rows := nat -> list nat.
Definition put (r : rows) (k : nat) (l : list nat) : rows := fun x => if x =? k then l else r x.
Lemma put_eq r k l : put r k l k = l. Proof. unfold put. now rewrite Nat.eqb_refl. Qed.
Lemma put_ne r k l x : x <> k -> put r k l x = r x. Proof. unfold put. destruct (Nat.eqb_spec x k); congruence. Qed.

Section Net.
  Variables (n : nat) (o : list (nat * nat)).
  Hypothesis (OR : forall a b, In (a, b) o -> b < a < n).
  Definition link (r : rows) (a b : nat) : Prop := In (a, b) o /\ r a <> [] /\ r b <> [].
  Definition conn (r : rows) : nat -> nat -> Prop := clos_trans nat (link r).
  (** Nothing has to precede sequence [k]. *)
  Definition free (r : rows) (k : nat) : Prop := forall l, In (l, k) o -> r l = [].
  Definition net (r : rows) : tnet :=
    {| t_in := fun x => exists k i, x = [k; i] /\ k < n /\ i < length (r k);
       t_lab := fun x => match x with [k; i] => nth i (rev (r k)) 0 | _ => 0 end;
       t_ord := fun x y => exists k i l j, x = [k; i] /\ y = [l; j] /\ k < n /\ l < n /\ i < length (r k) /\ j < length (r l) /\ ((k = l /\ j < i) \/ conn r k l) |}.

  Lemma conn_lt r a b : conn r a b -> b < a.
  Proof. induction 1 as [a b (I & _)|a b d _ IH1 _ IH2]; [apply OR in I|]; lia. Qed.
  Lemma conn_last r a b : conn r a b -> exists z, link r z b.
  Proof. intros H. apply clos_trans_tn1 in H. destruct H as [z H|y z H T]; eauto. Qed.
  Lemma conn_first r a b : conn r a b -> r a <> [].
  Proof. induction 1 as [a b (_ & H & _)|a b d _ IH1 _ IH2]; auto. Qed.
  Lemma conn_mono r r' a b : (forall a b, link r a b -> link r' a b) -> conn r a b -> conn r' a b.
  Proof. intros M. induction 1 as [a b H|a b d _ IH1 _ IH2]; [apply t_step; auto|apply t_trans with b; auto]. Qed.

  Lemma net_wf r : wf_tn (net r).
  Proof.
    split; cbn.
    - intros x y z (k & i & l & j & -> & -> & A & B & C & D & H) (l' & j' & q & h & [= <- <-] & -> & _ & A' & _ & B' & H'). exists k, i, q, h. do 6 (split; [auto|]).
      destruct H as [[-> H]|H], H' as [[-> H']|H']; auto; [left; split; auto; lia|]. right. eapply t_trans; eauto.
    - intros x (k & i & l & j & -> & [= <- <-] & _ & _ & _ & _ & [[_ H]|H]); [lia|]. apply conn_lt in H. lia.
    - intros x y (k & i & l & j & -> & -> & A & B & C & D & _). split; eexists _, _; eauto.
    - intros x y (k & i & -> & _) (l & j & -> & _) (z & E). destruct z; [now rewrite app_nil_r in E|discriminate].
  Qed.

  Lemma free_conn r k : free r k -> forall l, ~ conn r l k.
  Proof. intros F l H. destruct (conn_last _ _ _ H) as (z & I & N & _). now apply F in I. Qed.
  Lemma net_minimal r k i t : k < n -> r k = i :: t -> free r k -> minimal (net r) [k; length t].
  Proof.
    intros L E F. split; [exists k, (length t); rewrite E; cbn; auto|]. intros y (l & j & k' & i' & -> & [= <- <-] & _ & _ & J & _ & [[-> H]|H]); [rewrite E in J; cbn in J; lia|]. now apply free_conn in H.
  Qed.
  Lemma minimal_free r x : minimal (net r) x -> exists k i t, x = [k; length t] /\ k < n /\ r k = i :: t /\ free r k.
  Proof.
    intros [(k & h & -> & L & Lh) M]. destruct (r k) as [|i t] eqn:E; [cbn in Lh; lia|]. cbn in Lh. exists k, i, t. assert (h = length t).
    { destruct (Nat.eq_dec h (length t)); auto. exfalso. apply (M [k; length t]). exists k, (length t), k, h. rewrite E. cbn. do 4 (split; [auto|]). split; [lia|]. split; [lia|]. left. split; auto. lia. }
    subst h. repeat split; auto. intros l I. destruct (r l) as [|x y] eqn:El; auto. exfalso. apply (M [l; 0]). exists l, 0, k, (length t). rewrite E, El. cbn. assert (X := OR l k I). do 2 (split; [auto|]). do 4 (split; [lia|]). right. apply t_step. unfold link. rewrite E, El. split; auto. split; discriminate.
  Qed.

  (** ** Removing the first task of a sequence *)
  Lemma conn_leave r k t : free r k -> r k <> [] -> forall a b, conn (put r k t) a b <-> conn r a b /\ put r k t a <> [].
  Proof.
    intros F NE a b. split.
    - intros H. split; [|eapply conn_first; eauto]. revert H. apply conn_mono. intros x y (I & A & B). split; auto. destruct (Nat.eq_dec x k) as [->|Nx]; [|rewrite put_ne in A by auto]; (destruct (Nat.eq_dec y k) as [->|Ny]; [|rewrite put_ne in B by auto]); auto.
    - intros [H NA]. apply clos_trans_t1n in H. induction H as [a b (I & A & B)|a z b (I & A & B) T IH].
      + apply t_step. split; auto. split; auto. rewrite put_ne; auto. intros ->. now apply F in I.
      + assert (Nz : put r k t z <> []) by (rewrite put_ne; auto; intros ->; now apply F in I). apply t_trans with z; [|exact (IH Nz)]. apply t_step. split; auto.
  Qed.
  Lemma net_leave r k i t : k < n -> r k = i :: t -> free r k -> teq (minus (net r) [k; length t]) (net (put r k t)).
  Proof.
    intros L E F. assert (LN : forall x h, h < length (put r k t x) <-> h < length (r x) /\ (x = k -> h <> length t)).
    { intros x h. destruct (Nat.eq_dec x k) as [->|N]; [rewrite put_eq, E; cbn; split; [intros; split; [lia|intros; lia]|intros [A B]; specialize (B eq_refl); lia]|rewrite put_ne by auto; split; [auto|tauto]]. }
    split; cbn.
    - intros x. split.
      + intros [(l & h & -> & Ll & Lh) N]. exists l, h. split; auto. split; auto. apply LN. split; auto. intros -> ->. congruence.
      + intros (l & h & -> & Ll & Lh). apply LN in Lh as [Lh N]. split; [eauto|]. intros [= -> ->]. now apply N.
    - intros x [(l & h & -> & Ll & Lh) N]. destruct (Nat.eq_dec l k) as [->|Nl]; [|now rewrite put_ne]. rewrite put_eq, E in *. cbn [rev length] in *. assert (h <> length t) by congruence. rewrite app_nth1; auto. rewrite rev_length. lia.
    - intros x y. split.
      + intros [(a & h & b & g & -> & -> & La & Lb & Lh & Lg & H) [N1 N2]]. exists a, h, b, g. assert (LN1 : h < length (put r k t a)) by (apply LN; split; auto; intros -> ->; congruence). assert (LN2 : g < length (put r k t b)) by (apply LN; split; auto; intros -> ->; congruence).
        do 6 (split; [auto|]). destruct H as [H|H]; auto. right. apply conn_leave; auto; [rewrite E; discriminate|]. split; auto. intros Q. rewrite Q in LN1. cbn in LN1. lia.
      + intros (a & h & b & g & -> & -> & La & Lb & Lh & Lg & H). apply LN in Lh as [Lh N1]. apply LN in Lg as [Lg N2]. split; [|split; intros [= -> ->]; [now apply N1|now apply N2]]. exists a, h, b, g. do 6 (split; [auto|]). destruct H as [H|H]; auto. right.
        apply conn_leave in H as [H _]; auto. rewrite E. discriminate.
  Qed.

  (** ** Decomposing the first task of a sequence *)
  Lemma net_dec r k m t : k < n -> r k = m_task m :: t -> 1 <= length (m_subs m) -> total m -> (forall a b, m_lt m a b -> a < b) ->
    exists f, iso f (decF (net r) [k; length t] m) (net (put r k (m_subs m ++ t))).
  Proof.
    intros L E N1 TO MA. set (nn := length (m_subs m)) in *. set (r' := put r k (m_subs m ++ t)).
    assert (Rk : r' k = m_subs m ++ t) by apply put_eq. assert (Ro : forall x, x <> k -> r' x = r x) by (intros; now apply put_ne).
    assert (CE : forall a b, conn r' a b <-> conn r a b).
    { assert (X : forall x, r' x <> [] <-> r x <> []) by (intros x; destruct (Nat.eq_dec x k) as [->|N]; [rewrite Rk, E; split; [discriminate|]; intros _ Q; apply app_eq_nil in Q as [Q _]; unfold nn in N1; rewrite Q in N1; cbn in N1; lia|now rewrite Ro]).
      intros a b. split; apply conn_mono; intros x y (I & A & B); (split; [auto|split; now apply X]). }
    assert (Lk : length (r' k) = nn + length t) by (rewrite Rk, app_length; reflexivity). assert (Lk0 : length (r k) = S (length t)) by now rewrite E.
    assert (OL : forall l h, h < length (r l) -> [l; h] <> [k; length t] -> h < length (r' l) /\ (l = k -> h < length t)).
    { intros l h Lh N. destruct (Nat.eq_dec l k) as [->|Nl]; [|rewrite Ro by auto; tauto]. assert (h <> length t) by congruence. rewrite Lk, Lk0 in *. lia. }
    assert (NK : ~ conn r k k) by (intros H; apply conn_lt in H; lia).
    set (f := fun x y : tid => (exists l h, l < n /\ h < length (r l) /\ [l; h] <> [k; length t] /\ x = [l; h] /\ y = [l; h]) \/ (exists a, a < nn /\ x = [k; length t; a] /\ y = [k; length t + (nn - 1 - a)])). exists f. split.
    - intros x y [(l & h & Ll & Lh & N & -> & ->)|(a & La & -> & ->)]; cbn.
      + split; [left; split; [eauto|auto]|]. exists l, h. split; auto. split; auto. now apply OL.
      + split; [right; exists a; auto|]. exists k, (length t + (nn - 1 - a)). split; auto. split; auto. rewrite Lk. lia.
    - intros x [[(l & h & -> & Ll & Lh) N]|(a & La & ->)]; [exists [l; h]; left; exists l, h; auto|]. cbn. exists [k; length t + (nn - 1 - a)]. right. exists a. auto.
    - intros y (l & h & -> & Ll & Lh). destruct (Nat.eq_dec l k) as [->|Nl].
      + rewrite Lk in Lh. destruct (Nat.lt_ge_cases h (length t)) as [Q|Q]; [exists [k; h]; left; exists k, h; repeat split; auto; try lia; intros [= X]; lia|].
        exists [k; length t; nn - 1 - (h - length t)]. right. exists (nn - 1 - (h - length t)). split; [lia|]. split; auto. do 2 f_equal. lia.
      + rewrite Ro in Lh by auto. exists [l; h]. left. exists l, h. repeat split; auto. congruence.
    - intros x y y' [(l & h & Ll & Lh & N & -> & ->)|(a & La & -> & ->)] [(l' & h' & Ll' & Lh' & N' & [= <- <-] & ->)|(a' & La' & [= E'] & ->)]; auto. now subst a'.
    - intros x x' y [(l & h & Ll & Lh & N & -> & ->)|(a & La & -> & ->)] [(l' & h' & Ll' & Lh' & N' & -> & Q)|(a' & La' & -> & Q)].
      + congruence.
      + injection Q as -> ->. destruct (OL k (length t + (nn - 1 - a')) Lh N) as [_ X]. specialize (X eq_refl). lia.
      + injection Q as <- <-. destruct (OL k (length t + (nn - 1 - a)) Lh' N') as [_ X]. specialize (X eq_refl). lia.
      + injection Q as Q. do 3 f_equal. lia.
    - intros x y [(l & h & Ll & Lh & N & -> & ->)|(a & La & -> & ->)]; cbn [net t_lab decF].
      + assert (Q : child_of [k; length t] [l; h] = None) by (destruct (child_of [k; length t] [l; h]) eqn:Q; auto; apply child_of_spec in Q; discriminate). rewrite Q. destruct (Nat.eq_dec l k) as [->|Nl]; [|now rewrite Ro]. destruct (OL k h Lh N) as [_ X]. specialize (X eq_refl). rewrite Rk, E, rev_app_distr. cbn [rev]. rewrite !app_nth1 by (rewrite rev_length; auto). reflexivity.
      + assert (Q : child_of [k; length t] [k; length t; a] = Some a) by now apply child_of_spec. rewrite Q, Rk, rev_app_distr, app_nth2 by (rewrite rev_length; lia). rewrite rev_length, rev_nth by (unfold nn in La |- *; lia). f_equal. unfold nn in *. lia.
    - intros x y x' y' F F'. split.
      + intros H. destruct F as [(l & h & Ll & Lh & N & -> & ->)|(a & La & -> & ->)], F' as [(l' & h' & Ll' & Lh' & N' & -> & ->)|(a' & La' & -> & ->)]; cbn in H.
        * destruct H as [(_ & _ & _ & _ & H)|[(? & ? & _ & _ & [=] & _)|[(? & _ & [=] & _)|(? & _ & [=] & _)]]]. destruct H as (a1 & b1 & a2 & b2 & [= <- <-] & [= <- <-] & _ & _ & _ & _ & H). exists l, h, l', h'. do 4 (split; [auto|]). split; [now apply OL|]. split; [now apply OL|]. destruct H as [H|H]; auto. right. now apply CE.
        * destruct H as [(_ & (? & ? & [=] & _) & _)|[(? & ? & _ & _ & [=] & _)|[(? & _ & [=] & _)|(a & Ha & [= <-] & _ & _ & H)]]]. destruct H as (a1 & b1 & a2 & b2 & [= <- <-] & [= <- <-] & _ & _ & _ & _ & H). exists l, h, k, (length t + (nn - 1 - a')). do 4 (split; [auto|]). split; [now apply OL|]. split; [rewrite Lk; lia|].
          destruct H as [[-> H]|H]; [|right; now apply CE]. exfalso. rewrite Lk0 in Lh. lia.
        * destruct H as [((? & ? & [=] & _) & _)|[(? & ? & _ & _ & _ & [=] & _)|[(b & Hb & [= <-] & _ & _ & H)|(? & _ & [=] & _)]]]. destruct H as (a1 & b1 & a2 & b2 & [= <- <-] & [= <- <-] & _ & _ & _ & _ & H). exists k, (length t + (nn - 1 - a)), l', h'. do 4 (split; [auto|]). split; [rewrite Lk; lia|]. split; [now apply OL|].
          destruct H as [[<- H]|H]; [|right; now apply CE]. left. split; auto. lia.
        * destruct H as [((? & ? & [=] & _) & _)|[(b & d & _ & _ & [= <-] & [= <-] & H)|[(b & Hb & _ & (? & ? & [=] & _) & _)|(b & Hb & _ & (? & ? & [=] & _) & _)]]]. exists k, (length t + (nn - 1 - a)), k, (length t + (nn - 1 - a')). do 4 (split; [auto|]). do 2 (split; [rewrite Lk; lia|]). left. split; auto. apply MA in H. lia.
      + intros (k1 & h1 & k2 & h2 & E1 & E2 & _ & _ & _ & _ & H). destruct F as [(l & h & Ll & Lh & N & -> & ->)|(a & La & -> & ->)], F' as [(l' & h' & Ll' & Lh' & N' & -> & ->)|(a' & La' & -> & ->)]; injection E1 as <- <-; injection E2 as <- <-; cbn.
        * left. split; [eauto|]. split; [eauto|]. split; auto. split; auto. exists l, h, l', h'. do 6 (split; [auto|]). destruct H as [H|H]; auto. right. now apply CE.
        * right. right. right. exists a'. split; auto. split; auto. split; [eauto|]. split; auto. exists l, h, k, (length t). do 4 (split; [auto|]). split; auto. split; [rewrite Lk0; lia|]. destruct H as [[-> H]|H]; [|right; now apply CE]. destruct (OL k h Lh N) as [_ X]. specialize (X eq_refl). lia.
        * right. right. left. exists a. split; auto. split; auto. split; [eauto|]. split; auto. exists k, (length t), l', h'. do 4 (split; [auto|]). split; [rewrite Lk0; lia|]. split; auto. destruct H as [[<- H]|H]; [|right; now apply CE]. left. split; auto. destruct (OL k h' Lh' N') as [_ X]. now apply X.
        * right. left. exists a, a'. do 4 (split; [auto|]). destruct H as [[_ H]|H]; [|exfalso; apply CE in H; now apply NK]. apply TO. fold nn. lia.
  Qed.
End Net.

(** ** Decomposing the initial task *)
Definition start (m : method) : rows := fun k => if k <? length (m_subs m) then [nth k (rev (m_subs m)) 0] else [].
Lemma net_top m P : (forall a b, In (a, b) (m_ord m) -> a < b < length (m_subs m)) ->
  exists f, iso f (decF (initial_network P) [] m) (net (length (m_subs m)) (mord m) (start m)).
Proof.
  set (n := length (m_subs m)). intros OR. assert (ST : forall k, k < n -> start m k = [nth k (rev (m_subs m)) 0]) by (intros k L; unfold start; fold n; destruct (Nat.ltb_spec k n); [auto|lia]).
  assert (NE : forall k, start m k <> [] -> k < n) by (intros k H; unfold start in H; fold n in H; destruct (Nat.ltb_spec k n); auto; congruence).
  assert (ML : forall a b, m_lt m a b -> a < b < n) by (intros a b H; induction H as [a b H|a b d _ IH1 _ IH2]; [now apply OR|lia]).
  assert (C1 : forall a b, m_lt m a b -> conn (mord m) (start m) (n - 1 - a) (n - 1 - b)).
  { intros a b H. induction H as [a b H|a b d _ IH1 _ IH2]; [|apply t_trans with (n - 1 - b); auto]. apply t_step. assert (X := OR a b H). split; [unfold mord; apply in_map_iff; exists (a, b); auto|]. rewrite !ST by lia. split; discriminate. }
  assert (C2 : forall k l, conn (mord m) (start m) k l -> k < n /\ l < n /\ m_lt m (n - 1 - k) (n - 1 - l)).
  { intros k l H. induction H as [k l (I & A & B)|k l q _ IH1 _ IH2]; [|split; [tauto|]; split; [tauto|]; apply m_lt_trans with (n - 1 - l); tauto]. split; [now apply NE|]. split; [now apply NE|]. unfold mord in I. apply in_map_iff in I as ([a b] & [= <- <-] & I). fold n. assert (X := OR a b I).
    replace (n - 1 - (n - 1 - a)) with a by lia. replace (n - 1 - (n - 1 - b)) with b by lia. now apply t_step. }
  exists (fun x y => exists a, a < n /\ x = [a] /\ y = [n - 1 - a; 0]). split.
  - intros x y (a & La & -> & ->). cbn. split; [right; exists a; auto|]. exists (n - 1 - a), 0. rewrite ST by lia. cbn. repeat split; lia.
  - intros x [[-> N]|(a & La & ->)]; [now destruct N|]. cbn. eauto.
  - intros y (k & i & -> & Lk & Li). rewrite ST in Li by auto. cbn in Li. exists [n - 1 - k], (n - 1 - k). split; [lia|]. split; auto. f_equal; [lia|f_equal; lia].
  - intros x y y' (a & La & -> & ->) (a' & _ & [= <-] & ->). reflexivity.
  - intros x x' y (a & La & -> & ->) (a' & La' & -> & [= E]). f_equal. lia.
  - intros x y (a & La & -> & ->). cbn. rewrite ST by lia. cbn. rewrite rev_nth by (fold n; lia). fold n. f_equal. lia.
  - intros x y x' y' (a & La & -> & ->) (b & Lb & -> & ->). cbn [net t_ord decF initial_network t_in]. split.
    + intros [(E & _)|[(a' & b' & _ & _ & [= <-] & [= <-] & H)|[(a' & _ & _ & E & _)|(a' & _ & _ & E & _)]]]; try discriminate. exists (n - 1 - a), 0, (n - 1 - b), 0. rewrite !ST by lia. cbn. repeat split; try lia. right. auto.
    + intros (k & i & l & j & [= <- <-] & [= <- <-] & _ & _ & _ & _ & [[_ H]|H]); [lia|]. right. left. exists a, b. do 4 (split; [auto|]). apply C2 in H as (_ & _ & H). replace (n - 1 - (n - 1 - a)) with a in H by lia. replace (n - 1 - (n - 1 - b)) with b in H by lia. exact H.
Qed.
