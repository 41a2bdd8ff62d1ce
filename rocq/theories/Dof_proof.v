(** Lemmas about the program of the heuristic: lists, the reachable actions, evaluation with integers. *)
From Coq Require Import QArith Qround.
From Verif Require Import Base Htn_problem Htn_spec Heap_model IntUtil_model Tab_model Pg_model Pg_spec Pg_proof Pg_thm Lm_spec Dof_spec Dof_model Dof_count.
Local Open Scope Z_scope.

(** ** Lists *)
Lemma in_enum {A} (l : list A) i x : In (i, x) (enum l) <-> nth_error l i = Some x.
Proof.
  unfold enum. enough (H : forall k, In (i, x) (combine (seq k (length l)) l) <-> (k <= i)%nat /\ nth_error l (i - k) = Some x).
  { rewrite H, Nat.sub_0_r. intuition lia. }
  induction l as [|a l IH]; intros k; cbn [length seq combine].
  - cbn. split; [easy|]. intros [_ H]. now destruct (i - k)%nat.
  - cbn [In]. rewrite IH. split.
    + intros [[= -> ->]|[L E]]; [split; [lia|]; now rewrite Nat.sub_diag|]. split; [lia|]. replace (i - k)%nat with (S (i - S k))%nat by lia. exact E.
    + intros [L E]. destruct (Nat.eq_dec i k) as [->|N].
      * rewrite Nat.sub_diag in E. cbn in E. left. congruence.
      * right. split; [lia|]. replace (i - k)%nat with (S (i - S k))%nat in E by lia. exact E.
Qed.
Lemma nodup_fst {A B} (l : list (A * B)) : NoDup (map fst l) -> NoDup l.
Proof. induction l as [|x l IH]; cbn; intros N; [constructor|]. inversion N as [|? ? N1 N2]; subst. constructor; auto. intros H. apply N1. now apply in_map. Qed.
Lemma fst_enum {A} (l : list A) : map fst (enum l) = seq 0 (length l).
Proof.
  unfold enum. generalize 0%nat. induction l as [|a l IH]; intros k; cbn; auto. now rewrite IH.
Qed.
Lemma enum_nodup {A} (l : list A) : NoDup (enum l).
Proof. apply nodup_fst. rewrite fst_enum. apply seq_NoDup. Qed.

Lemma oflat_some {A B} (f : A -> option (list B)) l bs : oflat f l = Some bs -> forall b, In b bs <-> exists a c, In a l /\ f a = Some c /\ In b c.
Proof.
  unfold oflat. intros H. apply obind_some in H as (ls & E & H). injection H as <-. revert ls E. induction l as [|a l IH]; intros ls E b; cbn in E.
  - injection E as <-. cbn. split; [easy|]. intros (x & c & H & _). easy.
  - apply obind_some in E as (c & E1 & E). apply obind_some in E as (cs & E2 & E). injection E as <-. cbn [concat]. rewrite in_app_iff, (IH cs E2). split.
    + intros [H|(x & d & H1 & H2 & H3)]; [exists a, c; cbn; auto|exists x, d; cbn; auto].
    + intros (x & d & [<-|H1] & H2 & H3); [left; congruence|right; eauto].
Qed.
Lemma oflat_def {A B} (f : A -> option (list B)) l : (forall a, In a l -> exists c, f a = Some c) -> exists bs, oflat f l = Some bs.
Proof.
  intros H. unfold oflat. enough (G : exists ls, omap f l = Some ls) by (destruct G as (ls & ->); cbn; eauto).
  induction l as [|a l IH]; cbn; [eauto|]. destruct (H a (or_introl eq_refl)) as (c & ->). cbn. destruct IH as (cs & ->); [intros; apply H; now right|]. cbn. eauto.
Qed.
Lemma omap_in {A B} (f : A -> option B) l bs : omap f l = Some bs -> forall b, In b bs <-> exists a, In a l /\ f a = Some b.
Proof.
  revert bs. induction l as [|a l IH]; intros bs E b; cbn in E.
  - injection E as <-. cbn. split; [easy|]. intros (x & H & _). easy.
  - apply obind_some in E as (c & E1 & E). apply obind_some in E as (cs & E2 & E). injection E as <-. cbn [In]. rewrite (IH cs E2). split.
    + intros [<-|(x & H1 & H2)]; [exists a|exists x]; cbn; auto.
    + intros (x & [<-|H1] & H2); [left; congruence|right; eauto].
Qed.

Lemma take_while_app {A} (p : A -> bool) l l' : (forall x, In x l -> p x = true) -> (forall x, In x l' -> p x = false) -> take_while p (l ++ l') = l.
Proof.
  intros H1 H2. induction l as [|a l IH]; cbn.
  - destruct l' as [|b l']; auto. cbn. now rewrite (H2 b (or_introl eq_refl)).
  - rewrite (H1 a (or_introl eq_refl)), IH; auto. intros; apply H1; now right.
Qed.

(** A binary search finds only what is there, sorted or not. *)
Lemma index_loop_sound fuel a v : forall lo hi r, index_loop fuel a lo hi v = Some r -> r = -1 \/ exists i, r = Z.of_nat i /\ nth_error a i = Some v.
Proof.
  induction fuel as [|fuel IH]; intros lo hi r H; cbn [index_loop] in H; [discriminate|]. destruct (Nat.ltb lo hi); [|injection H as <-; auto].
  apply obind_some in H as (x & E & H). destruct (Z.eqb_spec x v) as [->|]; [injection H as <-; right; eauto|]. destruct (Z.ltb v x); eauto.
Qed.
Lemma index_loop_def fuel a v : forall lo hi, (hi <= length a)%nat -> (hi - lo < fuel)%nat -> exists r, index_loop fuel a lo hi v = Some r.
Proof.
  induction fuel as [|fuel IH]; intros lo hi H1 H2; cbn [index_loop]; [lia|]. destruct (Nat.ltb_spec lo hi) as [Q|Q]; [|eauto].
  assert (D : ((hi - 1 - lo) / 2 <= hi - 1 - lo)%nat) by (apply Nat.div_le_upper_bound; lia).
  destruct (nth_error a (lo + (hi - 1 - lo) / 2)) as [x|] eqn:E; [|apply nth_error_None in E; lia]. unfold get. rewrite E. cbn [obind].
  destruct (Z.eqb x v); [eauto|]. destruct (Z.ltb v x); apply IH; lia.
Qed.
Lemma containsInt_sound l f : exists b, containsInt (map Z.of_nat l) 0 (length l) (Z.of_nat f) = Some b /\ (b = true -> In f l).
Proof.
  unfold containsInt, indexOf. destruct (index_loop_def (S (length l - 0)) (map Z.of_nat l) (Z.of_nat f) 0 (length l)) as (r & E); [now rewrite map_length|lia|].
  rewrite E. cbn [obind]. exists (Z.leb 0 r). split; auto. intros H. apply Z.leb_le in H. apply index_loop_sound in E as [->|(i & -> & E)]; [lia|].
  rewrite nth_error_map in E. destruct (nth_error l i) as [x|] eqn:Q; [|discriminate]. injection E as E. apply Nat2Z.inj in E. subst. eapply nth_error_In; eauto.
Qed.

(** ** The reachable tasks: actions first *)
Lemma ofold_inv {A S} (J : S -> Prop) (f : S -> A -> option S) l : (forall x a y, In a l -> J x -> f x a = Some y -> J y) -> forall x y, J x -> ofold f l x = Some y -> J y.
Proof.
  induction l as [|a l IH]; intros H x y Jx E; cbn in E; [now injection E as <-|]. apply obind_some in E as (z & E1 & E2).
  eapply IH; [intros; eapply H; eauto; now right| |exact E2]. eapply H; eauto. now left.
Qed.
Lemma in_insert x l y : In y (insert x l) -> In y l \/ y = x.
Proof. unfold insert. destruct (memb x l); auto. intros H. apply in_app_or in H as [H|[H|[]]]; auto. Qed.

Section Tasks.
Variables (al : nat -> list Z) (P : problem) (T : pg_tables) (q0 : heap) (s R : list bool) (r : pg_result).
Hypothesis WP : wf_problem P.
Definition low (x : pg) : Prop := forall a, In a (g_tasks x) -> (a < length (p_cost P))%nat.

Lemma start_low x : pg_start al P T q0 s R = Some x -> low x.
Proof.
  unfold pg_start. intros H. apply obind_some in H as (u & _ & H). apply obind_some in H as (x1 & E1 & H).
  assert (L1 : low x1).
  { revert E1. apply (ofold_inv low); [|intros a Ha; cbn in Ha; easy]. intros y f z _ Jy E. unfold init_fact in E. apply obind_some in E as (b & _ & E). destruct b; [|now injection E as <-].
    apply obind_some in E as (q & _ & E). apply obind_some in E as (p & _ & E). injection E as <-. exact Jy. }
  revert H. apply (ofold_inv low); auto. intros y a z _ Jy E. unfold init_precless in E. apply obind_some in E as (b & _ & E). destruct b; [|now injection E as <-].
  apply obind_some in E as (adds & EA & E). repeat (apply obind_some in E as (? & ? & E)).
  assert (La : (a < length (p_cost P))%nat) by (rewrite <- (wf_add _ WP); eapply get_lt; eauto).
  revert E. apply (ofold_inv low); [|]. 
  - intros y1 f z1 _ Jy1 E. repeat (apply obind_some in E as (? & ? & E)). injection E as <-. exact Jy1.
  - intros b Hb. cbn [g_tasks] in Hb. apply in_insert in Hb as [Hb| ->]; auto.
Qed.

Lemma visit_low pv x op y : low x -> visit_op al P s R pv x op = Some y -> low y.
Proof.
  intros L E. unfold visit_op in E. apply obind_some in E as (h & _ & E). destruct (h + pv <=? INT_MAX); [|discriminate].
  apply obind_some in E as (os & _ & E). apply obind_some in E as (u & _ & E). apply obind_some in E as (us & _ & E). apply obind_some in E as (b & _ & E).
  destruct ((u - 1 =? 0) && b); [|injection E as <-; exact L].
  apply obind_some in E as (pre & _ & E). apply obind_some in E as (uf & _ & E). apply obind_some in E as (adds & EA & E).
  assert (La : (op < length (p_cost P))%nat) by (rewrite <- (wf_add _ WP); eapply get_lt; eauto).
  revert E. apply (ofold_inv low).
  - intros y1 f z1 _ Jy1 E. unfold add_effect in E. apply obind_some in E as (hh & _ & E). destruct (h + pv <? hh); [|now injection E as <-].
    apply obind_some in E as (p & _ & E). apply obind_some in E as (q & _ & E). injection E as <-. exact Jy1.
  - intros c Hc. cbn [g_tasks] in Hc. apply in_insert in Hc as [Hc| ->]; auto.
Qed.
Lemma loop_low fuel : forall x y, low x -> pg_loop fuel al P T s R x = Some y -> low y.
Proof.
  induction fuel as [|fuel IH]; intros x y L E; cbn [pg_loop] in E; destruct (heap_isEmpty (g_q x)); try (injection E as <-; exact L); [discriminate|].
  apply obind_some in E as (pv & _ & E). apply obind_some in E as (v & _ & E). apply obind_some in E as (q & _ & E). apply obind_some in E as (h & _ & E).
  destruct (h <? pv); [eapply IH; [|exact E]; exact L|]. apply obind_some in E as (ops & _ & E). apply obind_some in E as (x2 & E2 & E).
  eapply IH; [|exact E]. revert E2. apply (ofold_inv low); [|exact L]. intros z a z' _ Lz. now apply visit_low.
Qed.

(** Behind the actions there are decomposed tasks only. *)
Definition ext (A : list nat) (x : up) : Prop := exists B, u_tasks x = A ++ B /\ forall t, In t B -> exists md, In md (p_methods P) /\ m_task md = t.
Lemma up_ext A fuel : forall x y, ext A x -> up_loop fuel P T R x = Some y -> ext A y.
Proof.
  induction fuel as [|fuel IH]; intros x y L E; cbn [up_loop] in E; destruct (u_stack x) as [|t st]; try (injection E as <-; exact L); [discriminate|].
  apply obind_some in E as (ms & _ & E). apply obind_some in E as (x' & E2 & E). eapply IH; [|exact E]. revert E2. apply (ofold_inv (ext A)); [|exact L].
  intros z m z' _ (B & EB & HB) V. unfold visit_method in V. apply obind_some in V as (c & _ & V). apply obind_some in V as (cn & _ & V). apply obind_some in V as (md & Em & V).
  apply obind_some in V as (b & _ & V). destruct ((c - 1 =? 0) && b); [|injection V as <-; exists B; auto].
  destruct (memb (m_task md) (u_tasks z)) eqn:Q; [injection V as <-; exists B; auto|]. apply obind_some in V as (s' & _ & V). injection V as <-. cbn [u_tasks].
  exists (B ++ [m_task md]). cbn [u_tasks]. unfold insert. rewrite Q, EB, app_assoc. split; auto. intros u Hu. apply in_app_or in Hu as [Hu|[<-|[]]]; auto.
  exists md. split; auto. eapply nth_error_In. exact Em.
Qed.
Lemma tasks_split : calcReachability al P T q0 s R = Some r ->
  exists A B, r_tasks r = A ++ B /\ (forall a, In a A -> (a < length (p_cost P))%nat) /\ forall t, In t B -> exists md, In md (p_methods P) /\ m_task md = t.
Proof.
  unfold calcReachability. intros E. apply obind_some in E as (x0 & E0 & E). apply obind_some in E as (x & E1 & E). apply obind_some in E as (st & _ & E).
  apply obind_some in E as (u & E2 & E). injection E as <-. cbn [r_tasks]. apply start_low in E0. pose proof (loop_low _ _ _ E0 E1) as L.
  apply (up_ext (g_tasks x)) in E2 as (B & EB & HB); [exists (g_tasks x), B; auto|]. exists []. cbn [u_tasks]. rewrite app_nil_r. split; [reflexivity|easy].
Qed.
End Tasks.

(** *** The loops over the reachable actions visit all of them *)
Lemma acts_exact al P T q0 s R r : wf_problem P -> (forall t, (t < length (p_cost P))%nat -> nth_error (p_prim P) t = Some true) -> calcReachability al P T q0 s R = Some r ->
  forall a, In a (acts P r) <-> taskReachable r a = true /\ (a < length (p_cost P))%nat.
Proof.
  intros WP PR E a. destruct (tasks_split al P T q0 s R r WP E) as (A & B & EQ & HA & HB). unfold acts, taskReachable. rewrite memb_In, EQ.
  assert (BF : forall t, In t B -> Nat.ltb t (length (p_cost P)) = false).
  { intros t Ht. apply Nat.ltb_ge. destruct (HB t Ht) as (md & Im & <-). pose proof (wfm_task _ _ (wf_methods _ WP md Im)) as Q.
    destruct (Nat.lt_ge_cases (m_task md) (length (p_cost P))) as [L|L]; auto. rewrite (PR _ L) in Q. discriminate. }
  rewrite take_while_app; auto; [|intros x Hx; apply Nat.ltb_lt; auto]. rewrite in_app_iff. split.
  - intros H. split; auto.
  - intros [[H|H] L]; auto. apply BF in H. apply Nat.ltb_ge in H. lia.
Qed.
Lemma take_while_in {A} (p : A -> bool) l x : In x (take_while p l) -> In x l.
Proof. induction l as [|b l IH]; cbn [take_while]; auto. destruct (p b); [|easy]. intros [->|H]; [now left|right; auto]. Qed.
Lemma acts_nodup P r : NoDup (r_tasks r) -> NoDup (acts P r).
Proof.
  unfold acts. induction 1 as [|a l N1 N2 IH]; cbn [take_while]; [constructor|]. destruct (Nat.ltb a (length (p_cost P))); constructor; auto.
  intros H. apply N1. eapply take_while_in. exact H.
Qed.

(** ** Evaluation with integers *)
Definition zval (z : var -> Z) (ts : list (Z * var)) : Z := fold_right (fun '(c, v) q => c * z v + q) 0 ts.
Definition zsat (z : var -> Z) (c : lin) : Prop :=
  match l_rel c with LE => zval z (l_terms c) <= l_rhs c | GE => l_rhs c <= zval z (l_terms c) | EQ => zval z (l_terms c) = l_rhs c end.
Definition zfeasible (J : ilp) (z : var -> Z) : Prop :=
  (forall v lo hi, In (v, (lo, hi)) (i_vars J) -> lo <= z v <= hi) /\ (forall c, In c (i_cons J) -> zsat z c).

Lemma value_zval (x : var -> Q) (z : var -> Z) ts : (forall v, Qeq (x v) (inject_Z (z v))) -> Qeq (value x ts) (inject_Z (zval z ts)).
Proof.
  intros H. induction ts as [|[c v] ts IH]; cbn [value zval fold_right]; [reflexivity|]. fold (value x ts). fold (zval z ts).
  rewrite IH, (H v), <- inject_Z_mult, <- inject_Z_plus. reflexivity.
Qed.
Lemma sat_zsat (x : var -> Q) (z : var -> Z) c : (forall v, Qeq (x v) (inject_Z (z v))) -> sat x c <-> zsat z c.
Proof.
  intros H. unfold sat, zsat. pose proof (value_zval x z (l_terms c) H) as E. destruct (l_rel c); rewrite E; [rewrite <- Zle_Qle; reflexivity|rewrite <- Zle_Qle; reflexivity|].
  split; [apply inject_Z_injective|intros ->; reflexivity].
Qed.
Lemma zfeasible_feasible ip J z : zfeasible J z -> feasible ip J (fun v => inject_Z (z v)).
Proof.
  intros [H1 H2]. split; [|split].
  - destruct ip; auto. intros v. exists (z v). reflexivity.
  - intros v lo hi H. rewrite <- !Zle_Qle. auto.
  - intros c Hc. apply (sat_zsat _ z); auto. reflexivity.
Qed.
Lemma feasible_zfeasible J x : feasible true J x -> zfeasible J (fun v => Qfloor (x v)) /\ forall v, Qeq (x v) (inject_Z (Qfloor (x v))).
Proof.
  intros [H0 [H1 H2]]. assert (E : forall v, Qeq (x v) (inject_Z (Qfloor (x v)))). { intros v. destruct (H0 v) as (z & Hz). rewrite Hz at 2. now rewrite Qfloor_Z. }
  split; auto. split.
  - intros v lo hi H. destruct (H1 v lo hi H) as [A B]. rewrite (E v) in A, B. rewrite <- Zle_Qle in A, B. auto.
  - intros c Hc. apply (sat_zsat x); auto.
Qed.

Lemma zval_app z a b : zval z (a ++ b) = zval z a + zval z b.
Proof. induction a as [|[c v] a IH]; cbn [app zval fold_right]; auto. fold (zval z (a ++ b)). fold (zval z a). rewrite IH. lia. Qed.
Lemma zval_cons z c v a : zval z ((c, v) :: a) = c * z v + zval z a.
Proof. reflexivity. Qed.
Lemma zval_map {A} z c (F : A -> var) (g : A -> nat) l : (forall a, In a l -> z (F a) = Z.of_nat (g a)) -> zval z (map (fun a => (c, F a)) l) = c * Z.of_nat (list_sum (map g l)).
Proof.
  induction l as [|a l IH]; intros H; cbn [map]; [cbn; lia|]. rewrite zval_cons, sum_cons, IH, (H a); [lia|now left|]. intros; apply H; now right.
Qed.

(** round of a value not above an integer *)
Lemma round_le q c : Qle q (inject_Z c) -> 0 <= c -> round q <= c.
Proof.
  intros H C. unfold round. destruct (Qle_bool 0 q) eqn:E.
  - assert (Q : Qle (q + (1 # 2)) (inject_Z c + (1 # 2))) by (apply Qplus_le_compat; auto; discriminate).
    apply Qfloor_resp_le in Q. assert (F : Qfloor (inject_Z c + (1 # 2)) = c); [|lia].
    unfold Qfloor, Qplus, inject_Z. cbn. replace (c * 2 + 1) with (1 + c * 2) by lia. rewrite Z.div_add by lia. reflexivity.
  - assert (Q : Qle 0 (- q + (1 # 2))).
    { assert (~ Qle 0 q) by (intros X; apply Qle_bool_iff in X; congruence). apply Qnot_le_lt in H0. apply Qlt_le_weak in H0. apply Qopp_le_compat in H0.
      setoid_replace 0%Q with (- 0 + 0)%Q by reflexivity. apply Qplus_le_compat; [exact H0|discriminate]. }
    apply Qfloor_resp_le in Q. change (Qfloor 0) with 0 in Q. lia.
Qed.
