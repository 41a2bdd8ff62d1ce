(** The numbers and lines printed for a tree of true variables. *)
From Coq Require Import Sorting.Sorted Permutation.
From Verif Require Import Base Htn_problem Htn_spec To_spec To_sem Sat_spec Sog_spec Sf_proof Tab_proof Pdt_model Pdt_spec Pdt_tree Pdt_expand Pdt_prune Pdt_leafs Pdt_vars Pdt_clause Pdt_dec Pdt_sound Spr_model Spr_spec Spr_tree.
From Verif Require Tree_spec.

Lemma Forall2_length_eq {A B} (R : A -> B -> Prop) l l' : Forall2 R l l' -> length l = length l'.
Proof. induction 1; cbn; auto. Qed.
Lemma Forall2_nth {A B} (R : A -> B -> Prop) l l' : Forall2 R l l' -> forall i x y, nth_error l i = Some x -> nth_error l' i = Some y -> R x y.
Proof. induction 1 as [|a b l l' H _ IH]; intros [|i] x y H1 H2; try discriminate; [injection H1 as <-; injection H2 as <-; auto|eauto]. Qed.
Lemma map_snd_combine {A B} (l1 : list A) : forall (l2 : list B), length l1 = length l2 -> map snd (combine l1 l2) = l2.
Proof. induction l1 as [|x l1 IH]; intros [|y l2] H; try discriminate; auto. cbn [combine map snd]. f_equal. apply IH. now injection H. Qed.
Lemma total_perm m o : total_seq m o -> Permutation o (seq 0 (length (m_subs m))).
Proof. intros (T1 & T2 & _). apply NoDup_Permutation; auto; [apply seq_NoDup|]. intros j. rewrite T2, in_seq. lia. Qed.

(** ** The inner loops *)
Fixpoint number_l (v : Z -> bool) (l : list pdt) (n : nat) : list ann * list (nat * nat) * nat :=
  match l with [] => ([], [], n) | u :: r => let '(a, x, n1) := number v u n in let '(rs, y, n2) := number_l v r n1 in (a :: rs, x ++ y, n2) end.
Lemma number_node v d u r n : number v (PNode d (u :: r)) n = let '(chs, acts, n') := number_l v (u :: r) n in (Ann d None None None chs, acts, n').
Proof. change (number v (PNode d (u :: r)) n) with (let '(chs, acts, n') := (fix go (l : list pdt) (n : nat) {struct l} : list ann * list (nat * nat) * nat :=
          match l with [] => ([], [], n) | u :: r => let '(a, x, n1) := number v u n in let '(rs, y, n2) := go r n1 in (a :: rs, x ++ y, n2) end) (u :: r) n in
      (Ann d None None None chs, acts, n')).
 set (f := fix go (l : list pdt) (n : nat) {struct l} : list ann * list (nat * nat) * nat :=
          match l with [] => ([], [], n) | u :: r => let '(a, x, n1) := number v u n in let '(rs, y, n2) := go r n1 in (a :: rs, x ++ y, n2) end).
 assert (G : forall l n, f l n = number_l v l n). { induction l as [|w l IH]; intros k; auto. cbn [number_l]. change (f (w :: l) k) with (let '(a, x, n1) := number v w k in let '(rs, y, n2) := f l n1 in (a :: rs, x ++ y, n2)). destruct (number v w k) as [[a x] n1]. now rewrite IH. }
 now rewrite G.
Qed.
Section L.
  Variable P : problem.
  Fixpoint assign_l (v : Z -> bool) (l : list ann) (n : nat) : option (list ann * nat) :=
    match l with [] => Some ([], n) | u :: r => '(b, n1) <- assign_out P v u n ;; '(rs, n2) <- assign_l v r n1 ;; Some (b :: rs, n2) end.
  Lemma assign_node v d task meth ch n : ch <> [] -> assign_out P v (Ann d None task meth ch) n = ('(id2, task2, meth2, n2) <- number_abs P v d (None, task, meth, n) ;; '(chs, n3) <- assign_l v ch n2 ;; Some (Ann d id2 task2 meth2 chs, n3)).
  Proof.
    intros N. set (f := fix go (l : list ann) (n : nat) {struct l} : option (list ann * nat) :=
          match l with [] => Some ([], n) | u :: r => '(b, n1) <- assign_out P v u n ;; '(rs, n2) <- go r n1 ;; Some (b :: rs, n2) end).
    assert (G : forall l n, f l n = assign_l v l n). { induction l as [|w l IH]; intros k; auto. cbn [assign_l]. change (f (w :: l) k) with ('(b, n1) <- assign_out P v w k ;; '(rs, n2) <- f l n1 ;; Some (b :: rs, n2)). destruct (assign_out P v w k) as [[b n1]|]; cbn [obind]; auto. now rewrite IH. }
    destruct ch as [|a ch]; [congruence|]. change (assign_out P v (Ann d None task meth (a :: ch)) n) with ('(id2, task2, meth2, n2) <- number_abs P v d (None, task, meth, n) ;; '(chs, n3) <- f (a :: ch) n2 ;; Some (Ann d id2 task2 meth2 chs, n3)).
    destruct (number_abs P v d (None, task, meth, n)) as [[[[i t] m] k]|]; cbn [obind]; auto. now rewrite G.
  Qed.
  Fixpoint print_l (l : list ann) : option (list Tree_spec.row) := match l with [] => Some [] | u :: r => x <- print_rows P u ;; y <- print_l r ;; Some (x ++ y) end.
  Lemma print_node d i t m ch : is_prim P t = false -> print_rows P (Ann d (Some i) (Some t) (Some m) ch) =
    (rest <- print_l ch ;; Some ({| Tree_spec.rw_id := i; Tree_spec.rw_task := t; Tree_spec.rw_meth := m; Tree_spec.rw_kids := flat_map (fun u => match next_out u with Some k => [k] | None => [] end) ch |} :: rest)).
  Proof. intros E. cbn [print_rows]. rewrite E. reflexivity. Qed.
  Fixpoint next_l (l : list ann) : option nat := match l with [] => None | u :: r => match next_out u with Some i => Some i | None => next_l r end end.
  Lemma next_node d t m ch : next_out (Ann d None t m ch) = next_l ch.
  Proof. reflexivity. Qed.
End L.

(** The printed actions are the plan. *)
Lemma number_plan v : forall t n, map snd (snd (fst (number v t n))) = tplan v t.
Proof.
  induction t as [d ch IH] using pdt_rect'. intros n. destruct ch as [|u r].
  - cbn [number fst snd tplan]. change (plan_at v d) with (true_prims v d). generalize (true_prims v d) as l. intros l. revert n. induction l as [|x l IHl]; intros n; auto. cbn [length seq combine map snd]. now rewrite IHl.
  - rewrite number_node. change (tplan v (PNode d (u :: r))) with (flat_map (tplan v) (u :: r)). destruct (number_l v (u :: r) n) as [[chs acts] n'] eqn:E. cbn [fst snd]. revert n chs acts n' E. induction IH as [|w l Hw IH IHl]; intros n chs acts n' E; cbn [number_l] in E; [injection E as <- <- <-; auto|].
    destruct (number v w n) as [[a x] n1] eqn:E1. destruct (number_l v l n1) as [[rs y] n2] eqn:E2. injection E as <- <- <-. rewrite map_app. cbn [flat_map]. f_equal; [|now apply (IHl n1 rs y n2)]. specialize (Hw n). now rewrite E1 in Hw.
Qed.

(** ** Loops that change the state once *)
Lemma ofold_same {A B} (f : A -> B -> option A) l : forall x, (forall y, In y l -> f x y = Some x) -> ofold f l x = Some x.
Proof. induction l as [|y l IH]; intros x H; auto. cbn [ofold]. rewrite (H y (or_introl eq_refl)). cbn [obind]. apply IH. intros z Hz. apply H. now right. Qed.
Lemma ofold_once {A B} (f : A -> nat * B -> option A) l x x' a : forall b, (forall i y z, nth_error l i = Some y -> b + i <> a -> f z (b + i, y) = Some z) -> (forall i y, nth_error l i = Some y -> b + i = a -> f x (b + i, y) = Some x') -> b <= a < b + length l ->
  ofold f (combine (seq b (length l)) l) x = Some x'.
Proof.
  induction l as [|y l IH]; intros b NO YES L; [cbn in L; lia|]. cbn [length seq combine ofold]. destruct (Nat.eq_dec b a) as [E|E].
  - assert (Z := YES 0 y eq_refl ltac:(lia)). rewrite Nat.add_0_r in Z. rewrite Z. cbn [obind]. apply ofold_same. intros [k w] Hk. apply In_nth_error in Hk as (i & Hi).
    assert (Hc : nth_error l i = Some w /\ k = S b + i). { clear -Hi. revert b i Hi. induction l as [|u l IH]; intros b i Hi; [destruct i; discriminate|]. cbn [length seq combine] in Hi. destruct i as [|i]; cbn [nth_error] in *; [injection Hi as <- <-; split; auto; lia|]. destruct (IH (S b) i Hi). split; auto. lia. }
    destruct Hc as [Hc ->]. replace (S b + i) with (b + S i) by lia. apply (NO (S i)); auto. lia.
  - assert (Z := NO 0 y x eq_refl ltac:(lia)). rewrite Nat.add_0_r in Z. rewrite Z. cbn [obind]. apply (IH (S b)); [| |cbn in L; lia].
    + intros i w z Hi N. replace (S b + i) with (b + S i) in * by lia. now apply NO.
    + intros i w Hi N. replace (S b + i) with (b + S i) in * by lia. now apply YES.
Qed.

Section Print.
  Existing Instance to_kind.
  Variables (P : problem) (F : flags) (T : pdt) (v : assignment).
  Hypothesis TO : tree_ok P T.
  Hypothesis FI : forall q t, at_node T q t -> filled P F q (dat t).
  Hypothesis VC : tall vcond T.
  Hypothesis LEAF : forall q d a, at_node T q (PNode d []) -> a < length (pn_abs d) -> In (IA q a) F.
  Hypothesis UN : forall q t, at_node T q t -> unpruned v F q (dat t).
  Hypothesis NODE : forall q d ch, at_node T q (PNode d ch) -> pn_exp d = true -> task_vars d <> [] -> unique_task v d /\ unique_meth v d /\ sem v F q d ch.
  Hypothesis ROOT : pn_prims (dat T) = [] /\ length (pn_abs (dat T)) = 1.

  Lemma off_abs q d ch x : at_node T q (PNode d ch) -> (forall a, ~ on v false d a) -> number_abs P v d x = Some x.
  Proof.
    intros A H. assert (FL := fl_len _ _ _ _ (FI q _ A) false). cbn [cvars ctasks dat] in FL. unfold number_abs. apply ofold_same. intros [a t] Ha. apply enum_in in Ha. destruct x as [[[id task] meth] n]. assert (La : a < length (pn_avar d)) by (rewrite FL; now apply get_lt in Ha). apply get_some in La as (o & Ho). rewrite Ho. cbn [obind]. destruct o as [z|]; auto.
    destruct (v z) eqn:E; auto. exfalso. apply (H a). exists z. auto.
  Qed.
  Lemma on_abs q d ch a t m mi id task meth n : at_node T q (PNode d ch) -> pn_exp d = true -> unique_task v d -> unique_meth v d -> on v false d a -> nth_error (pn_abs d) a = Some t -> onm v d a m -> nth_error (methods_of P t) m = Some mi ->
    number_abs P v d (id, task, meth, n) = Some (Some n, Some t, Some mi, S n).
  Proof.
    intros A Ee UQ UM O Ht OM Hmi. assert (FL := FI q _ A). cbn [dat] in FL. assert (FL' := fl_len _ _ _ _ FL false). cbn [cvars ctasks] in FL'. unfold number_abs, enum. apply ofold_once with (a := a).
    - intros i t' [[[id' task'] meth'] n'] Hi N. cbn [Nat.add] in *. assert (Li : i < length (pn_avar d)) by (rewrite FL'; now apply get_lt in Hi). apply get_some in Li as (o & Ho). rewrite Ho. cbn [obind]. destruct o as [z|]; auto. destruct (v z) eqn:E; auto. exfalso. destruct (UQ false i false a) as [_ X]; auto. exists z. auto.
    - intros i t' Hi E. cbn [Nat.add] in *. subst i. assert (t' = t) by congruence. subst t'. destruct O as (z & Hz & Tz). cbn [cvars] in Hz. unfold get at 1. rewrite Hz. cbn [obind]. rewrite Tz.
      assert (CM : chosen_method P v d a t meth = Some (Some mi)); [|now rewrite CM]. destruct (fl_meth _ _ _ _ FL Ee) as [_ FM]. destruct (FM a t Ht) as (mvs & M1 & M2 & _). unfold chosen_method, enum. apply ofold_once with (a := m).
      + intros i y acc Hi' N. cbn [Nat.add] in *. unfold get. rewrite M1. cbn [obind]. assert (Lm : i < length mvs) by (rewrite M2; now apply get_lt in Hi'). apply get_some in Lm as (o & Ho). unfold get in Ho. rewrite Ho. cbn [obind]. destruct o as [w|]; auto. destruct (v w) eqn:E; auto. exfalso. destruct (UM a i a m) as [_ X]; auto. exists mvs, w. auto.
      + intros i y Hi' E. cbn [Nat.add] in *. subst i. assert (y = mi) by congruence. subst y. destruct OM as (mvs' & w & W1 & W2 & W3). assert (mvs' = mvs) by congruence. subst mvs'. unfold get. rewrite M1. cbn [obind]. rewrite W2. cbn [obind]. now rewrite W3.
      + apply get_lt in Hmi. lia.
    - apply get_lt in Ht. lia.
  Qed.

  Definition olist {A} (o : option A) : list A := match o with Some x => [x] | None => [] end.
  (** every method is printed in execution order *)
  Definition ordered (w : wtree) : Prop := forall i t m kids, In (WN i t m kids) (subs w) -> exists me, nth_error (p_methods P) m = Some me /\ total_seq me (map fst kids).
  Definition shown (t : pdt) (o : option wtree) : Prop :=
    match o with
    | None => forall pr i, ~ on v pr (dat t) i
    | Some w => wok P w /\ ordered w /\ exists pr i x, on v pr (dat t) i /\ nth_error (ctasks pr (dat t)) i = Some x /\ wtask w = x /\ pr = match w with WA _ _ => true | WN _ _ _ _ => false end
    end.
  Definition orows (o : option wtree) : list Tree_spec.row := flat_map (rows_by pkids) (olist o).
  Definition oleaves (o : option wtree) : list (nat * nat) := flat_map leaves (olist o).

  Definition prints_l (l : list pdt) : Prop := forall n, exists cs acts n1, number_l v l n = (cs, acts, n1) /\ n <= n1 /\ map fst acts = seq n (n1 - n) /\
    forall m, exists cs2 m2 ws, assign_l P v cs m = Some (cs2, m2) /\ m <= m2 /\ map next_out cs2 = map (option_map wid) ws /\ print_l P cs2 = Some (flat_map orows ws) /\ acts = flat_map oleaves ws /\
      map Tree_spec.rw_id (flat_map orows ws) = seq m (m2 - m) /\ Forall2 shown l ws.
  Definition prints (t : pdt) : Prop := forall n, exists t1 acts n1, number v t n = (t1, acts, n1) /\ n <= n1 /\ map fst acts = seq n (n1 - n) /\
    forall m, exists t2 m2 o, assign_out P v t1 m = Some (t2, m2) /\ m <= m2 /\ next_out t2 = option_map wid o /\ print_rows P t2 = Some (orows o) /\ acts = oleaves o /\
      map Tree_spec.rw_id (orows o) = seq m (m2 - m) /\ shown t o /\ (forall i t m k, o = Some (WN i t m k) -> a_id t2 = Some i).

  Lemma prints_list l : Forall prints l -> prints_l l.
  Proof.
    induction 1 as [|u l Hu _ IH]; intros n.
    - exists [], [], n. rewrite Nat.sub_diag. split; auto. split; auto. split; auto. intros m. exists [], m, []. rewrite Nat.sub_diag. repeat (split; auto).
    - destruct (Hu n) as (t1 & acts & n1 & E & L & S1 & H). destruct (IH n1) as (cs & acts' & n2 & E' & L' & S2 & H'). cbn [number_l]. rewrite E, E'. exists (t1 :: cs), (acts ++ acts'), n2. split; auto. split; [lia|]. split.
      { rewrite map_app, S1, S2. replace (n2 - n) with ((n1 - n) + (n2 - n1)) by lia. rewrite seq_app. f_equal. f_equal. lia. }
      intros m. destruct (H m) as (t2 & m1 & o & K1 & K2 & K3 & K4 & K5 & K6 & K7 & _). destruct (H' m1) as (cs2 & m2 & ws & J1 & J2 & J3 & J4 & J5 & J6 & J7). cbn [assign_l]. rewrite K1. cbn [obind]. rewrite J1. cbn [obind].
      exists (t2 :: cs2), m2, (o :: ws). split; auto. split; [lia|]. split; [cbn [map]; congruence|]. split; [cbn [print_l]; rewrite K4; cbn [obind]; rewrite J4; reflexivity|]. split; [cbn [flat_map]; congruence|]. split.
      { cbn [flat_map]. rewrite map_app, K6, J6. replace (m2 - m) with ((m1 - m) + (m2 - m1)) by lia. rewrite seq_app. f_equal. f_equal. lia. }
      now constructor.
  Qed.

  Lemma on_dec d : (forall pr i, ~ on v pr d i) \/ exists pr i, on v pr d i.
  Proof.
    destruct (existsb v (task_vars d)) eqn:E.
    - right. apply existsb_exists in E as (x & Hx & Tx). apply task_vars_in in Hx as (pr & i & Hi). exists pr, i, x. auto.
    - left. intros pr i (x & Hx & Tx). assert (Z : existsb v (task_vars d) = true) by (apply existsb_exists; exists x; split; auto; apply task_vars_in; eauto). congruence.
  Qed.
  Lemma sub_rows i t m kids : rows_by pkids (WN i t m kids) = {| Tree_spec.rw_id := i; Tree_spec.rw_task := t; Tree_spec.rw_meth := m; Tree_spec.rw_kids := pkids kids |} :: flat_map (rows_by pkids) (map snd kids).
  Proof. unfold rows_by. rewrite subs_eq. cbn [wkids flat_map wrow app]. f_equal. induction kids as [|k kids IH]; auto. cbn [flat_map map]. now rewrite flat_map_app, IH. Qed.
  Lemma sub_leaves i t m kids : leaves (WN i t m kids) = flat_map leaves (map snd kids).
  Proof. unfold leaves. rewrite subs_eq. cbn [wkids flat_map wleaf app]. induction kids as [|k kids IH]; auto. cbn [flat_map map]. now rewrite flat_map_app, IH. Qed.
  Lemma next_ws cs ws : map next_out cs = map (option_map wid) ws -> next_l cs = option_map wid (hd_error (flat_map olist ws)) /\ flat_map (fun u => match next_out u with Some k => [k] | None => [] end) cs = map wid (flat_map olist ws).
  Proof.
    revert ws. induction cs as [|c cs IH]; intros [|w ws] E; try discriminate; auto. cbn [map] in E. injection E as E1 E2. destruct (IH ws E2) as [I1 I2]. cbn [next_l flat_map]. rewrite E1. destruct w as [w|]; cbn [option_map olist app flat_map hd_error map]; auto. split; congruence.
  Qed.
  Lemma flat_ws {A} (f : wtree -> list A) ws : flat_map (fun o => flat_map f (olist o)) ws = flat_map f (flat_map olist ws).
  Proof. induction ws as [|o ws IH]; auto. cbn [flat_map]. rewrite IH. now rewrite flat_map_app. Qed.

  Lemma node_prints : forall t q, at_node T q t -> prints t.
  Proof.
    induction t as [d ch IH] using pdt_rect'. intros q A. assert (UQ := unique_all P F T v TO FI VC NODE ROOT q _ A). cbn [dat] in UQ. assert (FL := FI q _ A). cbn [dat] in FL. assert (TK := at_ok P T TO q _ A). apply tree_ok_node in TK as (TK & _ & _).
    destruct ch as [|u0 r0] eqn:Ech.
    - intros n. cbn [number]. assert (LF : forall a, ~ on v false d a). { intros a O. apply (UN q _ A false a); [exact O|]. apply (LEAF q d a A). destruct O as (x & Hx & _). assert (Z := fl_len _ _ _ _ FL false). cbn [cvars ctasks] in *. apply get_lt in Hx. lia. }
      destruct (on_dec d) as [NONE|(pr & p & O)].
      + change (true_prims v d) with (plan_at v d). rewrite plan_at_none by auto. cbn [length seq combine]. eexists _, _, _. split; [reflexivity|]. split; [lia|]. split; [now rewrite Nat.add_0_r, Nat.sub_diag|]. intros m. cbn [last_id assign_out]. change (true_prims v d) with (plan_at v d). rewrite plan_at_none by auto. cbn [last_id length].
        rewrite (off_abs q d [] _ A LF). cbn [obind]. eexists _, _, None. split; [reflexivity|]. split; [lia|]. split; auto. split; auto. split; auto. split; [now rewrite Nat.add_0_r, Nat.sub_diag|]. split; [exact NONE|]. discriminate.
      + destruct pr; [|exfalso; exact (LF p O)]. assert (Lp : p < length (pn_prims d)). { destruct O as (x & Hx & _). assert (Z := fl_len _ _ _ _ FL true). cbn [cvars ctasks] in *. apply get_lt in Hx. lia. } apply get_some in Lp as (x & Hx).
        change (true_prims v d) with (plan_at v d). rewrite (plan_at_one v d p x); auto; [|exact (fl_len _ _ _ _ FL true)|intros i Oi; destruct (UQ _ _ _ _ Oi O); auto]. cbn [length seq combine last_id]. eexists _, _, _. split; [reflexivity|]. split; [lia|]. split; [now replace (n + 1 - n) with 1 by lia|].
        intros m. cbn [assign_out]. eexists _, m, (Some (WA n x)). rewrite Nat.sub_diag. split; [reflexivity|]. split; auto. split; [cbn; now rewrite Nat.add_0_r|]. split; auto. split; auto. split; auto. split; [|discriminate]. cbn [shown]. split.
        * intros u [<-|[]]. cbn [node_good]. apply (to_prims _ _ TK). eapply nth_error_In. exact Hx.
        * split; [intros i t k kids [X|[]]; discriminate|]. exists true, p, x. auto.
    - assert (NE : ch <> []) by (rewrite Ech; discriminate). intros n. rewrite number_node. rewrite <- Ech in *. clear Ech u0 r0.
      destruct (at_kids P T TO q d ch A NE) as [Ee NO].
      assert (CH : forall c u, nth_error ch c = Some u -> at_node T (c :: q) u) by (intros c u Hc; exact (at_child T q _ c u A Hc)).
      assert (PL : prints_l ch). { apply prints_list. rewrite Forall_forall in *. intros u Hu. apply In_nth_error in Hu as (c & Hc). apply (IH u (nth_error_In _ _ Hc) (c :: q)). auto. }
      destruct (PL n) as (cs & acts & n1 & E & L & S1 & H). rewrite E. exists (Ann d None None None cs), acts, n1. split; auto. split; auto. split; auto. intros m0.
      assert (NC : cs <> []). { clear -E NE. destruct ch as [|u r]; [congruence|]. cbn [number_l] in E. destruct (number v u n) as [[a x] k]. destruct (number_l v r k) as [[rs y] k']. injection E as <- _ _. discriminate. }
      rewrite (assign_node P v d None None cs m0 NC).
      destruct (on_dec d) as [NONE|(pr & p & O)]; [|destruct pr].
      + rewrite (off_abs q d ch _ A) by auto. cbn [obind]. destruct (H m0) as (cs2 & m2 & ws & K1 & K2 & K3 & K4 & K5 & K6 & K7). rewrite K1. cbn [obind]. eexists _, m2, None. split; [reflexivity|]. split; auto.
        assert (ZW : flat_map olist ws = []).
        { assert (G : forall o, In o ws -> o = None); [|clear -G; induction ws as [|o ws IH]; auto; cbn [flat_map]; rewrite (G o (or_introl eq_refl)); apply IH; intros o' Ho'; apply G; now right].
          intros o Ho. apply In_nth_error in Ho as (c & Hc). destruct o as [w|]; auto. exfalso. destruct (nth_error ch c) as [u|] eqn:Hu; [|apply nth_error_None in Hu; apply get_lt in Hc; rewrite <- (Forall2_length_eq _ _ _ K7) in Hc; lia].
          destruct (Forall2_nth _ _ _ K7 c u _ Hu Hc) as (_ & _ & pr & i & x & Oi & _). destruct (child_on P F T v TO VC NODE q d ch c u pr i A Hu Oi) as (_ & _ & _ & [(p & j & O' & _)|(a & m & j & _ & O' & _)]); exact (NONE _ _ O'). }
        destruct (next_ws cs2 ws K3) as [N1 _]. rewrite next_node, N1, ZW. unfold orows in K6. rewrite flat_ws, ZW in K6. unfold oleaves in K5. rewrite flat_ws, ZW in K5. repeat (split; auto). discriminate.
      + rewrite (off_abs q d ch _ A) by (intros a Oa; destruct (UQ _ _ _ _ O Oa); discriminate). cbn [obind]. destruct (H m0) as (cs2 & m2 & ws & K1 & K2 & K3 & K4 & K5 & K6 & K7). rewrite K1. cbn [obind].
        destruct (NODE q d ch A Ee (on_vars _ _ _ _ O)) as (_ & _ & (SI & _)). assert (Lx : p < length (pn_prims d)). { destruct O as (x & Hx & _). assert (Z := fl_len _ _ _ _ FL true). cbn [cvars ctasks] in *. apply get_lt in Hx. lia. } assert (Lp : p < length (pn_pos d)) by (rewrite (no_pos _ _ _ NO); auto). apply get_some in Lx as (x & Hx). unfold get in Hx.
        destruct (nth_error (pn_pos d) p) as [[[c i] j]|] eqn:Ep; [|apply nth_error_None in Ep; lia].
        destruct (no_pos_ok _ _ _ NO p c i j Ep) as (u' & cs' & Z1 & Z2 & _). rewrite nth_error_map in Z1. destruct (nth_error ch c) as [u|] eqn:Hc; [|discriminate]. injection Z1 as <-. destruct (SI p c i j u O Ep Hc) as [Oi _].
        assert (LW : length ws = length ch) by (symmetry; apply (Forall2_length_eq _ _ _ K7)).
        assert (Lc : c < length ws) by (rewrite LW; now apply get_lt in Hc). apply get_some in Lc as (o & Ho). unfold get in Ho.
        assert (OO : exists k, o = Some (WA k x)).
        { assert (Z := Forall2_nth _ _ _ K7 c u o Hc Ho). destruct o as [w|]; [|exfalso; exact (Z _ _ Oi)]. destruct Z as (_ & _ & pr' & i' & x' & O' & X' & W' & B'). assert (UU := unique_all P F T v TO FI VC NODE ROOT (c :: q) u (CH c u Hc)). destruct (UU _ _ _ _ Oi O') as [<- <-]. destruct w as [k a|]; [|discriminate]. exists k. f_equal. f_equal. cbn [wtask] in W'. cbn [ctasks] in X'. congruence. }
        destruct OO as (k & ->).
        assert (ZW : flat_map olist ws = [WA k x]).
        { set (f := fun c => match nth_error ws c with Some o => olist o | None => [] end). assert (FM : flat_map olist ws = flat_map f (seq 0 (length ws))) by (symmetry; apply flat_map_nth). rewrite FM, (sorted_concat f _ 0 [c]).
          - cbn [flat_map]. unfold f. rewrite Ho. reflexivity.
          - constructor; constructor.
          - intros c' [<-|[]]. apply get_lt in Ho. lia.
          - intros c' Lc' N'. unfold f. destruct (nth_error ws c') as [o|] eqn:Ho'; auto. destruct o as [w|]; auto. exfalso. assert (Lc'' : c' < length ch) by lia. apply get_some in Lc'' as (u' & Hc'). unfold get in Hc'. destruct (Forall2_nth _ _ _ K7 c' u' _ Hc' Ho') as (_ & _ & pr & i' & x' & O' & _).
            destruct (child_on P F T v TO VC NODE q d ch c' u' pr i' A Hc' O') as (_ & _ & _ & [(p' & j' & O2 & _ & E2)|(a & m & j' & _ & O2 & _)]); destruct (UQ _ _ _ _ O O2) as [X Y]; [|discriminate]. subst p'. rewrite Ep in E2. injection E2 as -> _ _. apply N'. now left. }
        eexists _, m2, (Some (WA k x)). split; [reflexivity|]. split; auto. destruct (next_ws cs2 ws K3) as [N1 _]. rewrite next_node, N1, ZW. unfold orows in K6. rewrite flat_ws, ZW in K6. unfold oleaves in K5. rewrite flat_ws, ZW in K5. split; auto. split; auto. split; auto. split; auto. split; [|discriminate].
        cbn [shown]. split; [intros w [<-|[]]; cbn [node_good]; apply (to_prims _ _ TK); eapply nth_error_In; exact Hx|]. split; [intros i' t' k' kids [X|[]]; discriminate|]. exists true, p, x. auto.
      + destruct (NODE q d ch A Ee (on_vars _ _ _ _ O)) as (_ & UM & (_ & [S2 S4] & _)). assert (Lx : p < length (pn_abs d)). { destruct O as (x & Hx & _). assert (Z := fl_len _ _ _ _ FL false). cbn [cvars ctasks] in *. apply get_lt in Hx. lia. } apply get_some in Lx as (x & Hx). unfold get in Hx.
        destruct (S4 p O) as (m & OM). destruct (S2 p m OM) as [_ SM]. destruct (fl_meth _ _ _ _ FL Ee) as [_ FM']. destruct (FM' p x Hx) as (mvs & M1 & M2 & _). assert (Lm : m < nmeth P x). { destruct OM as (mvs' & y & Y1 & Y2 & _). rewrite M1 in Y1. injection Y1 as <-. apply get_lt in Y2. lia. }
        assert (XM : exists mi, nth_error (methods_of P x) m = Some mi). { unfold nmeth in Lm. destruct (nth_error (methods_of P x) m) eqn:Em; eauto. apply nth_error_None in Em. lia. } destruct XM as (mi & Hmi).
        rewrite (on_abs q d ch p x m mi _ _ _ m0 A Ee UQ UM O Hx OM Hmi). cbn [obind].
        destruct (H (S m0)) as (cs2 & m2 & ws & K1 & K2 & K3 & K4 & K5 & K6 & K7). rewrite K1. cbn [obind].
        destruct (no_meth _ _ _ NO p x m mi Hx Hmi) as (me & o & vs & Q1 & Q2 & Q3 & Q4 & Q5 & Q6). rewrite map_length in Q4. destruct (placement_sorted _ _ _ Q4) as [SS IN].
        assert (LW : length ws = length ch) by (symmetry; apply (Forall2_length_eq _ _ _ K7)).
        set (f := fun c => match nth_error ws c with Some o => olist o | None => [] end).
        assert (EQ : flat_map olist ws = flat_map f vs).
        { assert (FM : flat_map olist ws = flat_map f (seq 0 (length ws))) by (symmetry; apply flat_map_nth). rewrite FM. apply sorted_concat; auto; [intros c Hc; specialize (IN c Hc); lia|]. intros c Lc N'. unfold f. destruct (nth_error ws c) as [[w|]|] eqn:Ho'; auto. exfalso. assert (Lc'' : c < length ch) by lia. apply get_some in Lc'' as (u' & Hc'). unfold get in Hc'.
          destruct (Forall2_nth _ _ _ K7 c u' _ Hc' Ho') as (_ & _ & pr & i' & x' & O' & _). destruct (child_on P F T v TO VC NODE q d ch c u' pr i' A Hc' O') as (_ & _ & _ & [(p' & j' & O2 & _ & E2)|(a' & m' & j' & OM' & O2 & E2)]).
          - destruct (UQ _ _ _ _ O O2) as [X Y]. discriminate.
          - destruct (UM _ _ _ _ OM OM') as [<- <-]. apply N'. exact (Q6 c _ E2). }
        assert (KD : Forall2 (fun j w => nth_error (m_subs me) j = Some (wtask w) /\ wok P w /\ ordered w) o (flat_map f vs)).
        { clear Q3 Q4 Q6 SS EQ. induction Q5 as [|j c o vs HR Q5 IHQ]; [constructor|]. cbn [flat_map]. destruct HR as (u' & k & y & R1 & R2 & R3 & R4). rewrite nth_error_map in R1. destruct (nth_error ch c) as [u|] eqn:Hc; [|discriminate]. injection R1 as <-. assert (Z := SM c u Hc). rewrite R2 in Z.
          assert (Lc : c < length ws) by (rewrite LW; now apply get_lt in Hc). apply get_some in Lc as (ow & Ho). unfold get in Ho. unfold f at 1. rewrite Ho. assert (X := Forall2_nth _ _ _ K7 c u ow Hc Ho). destruct ow as [w|]; [|exfalso; exact (X _ _ Z)]. cbn [olist app]. constructor; [|apply IHQ; intros c' H'; apply IN; now right].
          destruct X as (X1 & X2 & pr' & i' & x' & O' & X' & W' & _). assert (UU := unique_all P F T v TO FI VC NODE ROOT (c :: q) u (CH c u Hc)). destruct (UU _ _ _ _ Z O') as [EE1 EE2]. subst pr' i'. split; auto. congruence. }
        set (wl := flat_map f vs) in *. assert (Lo : length o = length wl) by exact (Forall2_length_eq _ _ _ KD). set (kids := combine o wl).
        assert (KF : map fst kids = o) by (apply map_fst_combine; auto). assert (KS : map snd kids = wl) by (apply map_snd_combine; auto).
        assert (KI : forall j w, In (j, w) kids -> nth_error (m_subs me) j = Some (wtask w) /\ wok P w /\ ordered w). { clear -KD. subst kids. induction KD as [|j w o wl Hj KD IHK]; intros j' w' [E|E] || intros j' w' []; [injection E as <- <-; auto|auto]. }
        destruct (next_ws cs2 ws K3) as [_ N2]. unfold orows in K4, K6. rewrite flat_ws, EQ in K4, K6. unfold oleaves in K5. rewrite flat_ws, EQ in K5. fold wl in K4, K5, K6. rewrite EQ in N2. fold wl in N2.
        assert (NP : is_prim P x = false). { unfold is_prim. apply nth_error_nth. apply (to_abs _ _ TK). eapply nth_error_In. exact Hx. }
        eexists _, m2, (Some (WN m0 x mi kids)). split; [reflexivity|]. split; [lia|]. split; [reflexivity|].
        assert (RW : orows (Some (WN m0 x mi kids)) = {| Tree_spec.rw_id := m0; Tree_spec.rw_task := x; Tree_spec.rw_meth := mi; Tree_spec.rw_kids := pkids kids |} :: flat_map (rows_by pkids) wl). { unfold orows. cbn [olist flat_map]. now rewrite app_nil_r, sub_rows, KS. }
        rewrite RW. split; [rewrite (print_node P d m0 x mi cs2 NP), K4; cbn [obind]; do 2 f_equal; f_equal; rewrite N2; unfold pkids; rewrite <- KS, map_map; reflexivity|]. split; [unfold oleaves; cbn [olist flat_map]; now rewrite app_nil_r, sub_leaves, KS|]. split.
        { cbn [map Tree_spec.rw_id]. rewrite K6. replace (m2 - m0) with (S (m2 - S m0)) by lia. reflexivity. }
        split; [|intros i t k k' X; injection X as -> _ _ _; reflexivity]. cbn [shown].
        assert (NG : node_good P (WN m0 x mi kids)). { exists me. split; auto. split; auto. rewrite KF. split; [exact (total_perm _ _ Q3)|]. intros j w Hw. apply (KI j w Hw). }
        split; [|split].
        * intros w Hw. apply in_subs in Hw as [->|([j w'] & Hk & Hw)]; auto. cbn [wkids] in Hk. apply (KI j w' Hk). exact Hw.
        * intros i t k kids' Hw. apply in_subs in Hw as [X|([j w'] & Hk & Hw)]; [injection X as -> -> -> ->; exists me; rewrite KF; auto|]. cbn [wkids] in Hk. apply (KI j w' Hk) with (i := i) (t := t); exact Hw.
        * exists false, p, x. auto.
  Qed.

  (** What is printed for the whole tree. *)
  Hypothesis WF : wf_problem P.
  Hypothesis ON : on v false (dat T) 0.
  Hypothesis INIT : pn_abs (dat T) = [p_init P].
  Lemma print_ok : exists acts root rows, sat_print P v T = Some (acts, Some root, rows) /\ map snd acts = sat_plan v T /\ map fst acts = seq 0 (length acts) /\ tree_up_to_order P root rows acts /\ in_execution_order P rows acts.
  Proof.
    assert (A : at_node T [] T) by reflexivity. destruct (node_prints T [] A 0) as (t1 & acts & n1 & E1 & _ & S1 & H). destruct (H n1) as (t2 & m2 & o & E2 & LM & _ & E3 & E4 & S2 & SH & AI). rewrite Nat.sub_0_r in S1.
    assert (LA : n1 = length acts) by (rewrite <- (map_length fst), S1, seq_length; reflexivity).
    destruct o as [w|]; [|exfalso; exact (SH _ _ ON)]. destruct SH as (OK & ORD & pr & i & x & O & X & WT & B). assert (UU := unique_all P F T v TO FI VC NODE ROOT [] T A). destruct (UU _ _ _ _ ON O) as [<- <-]. cbn [ctasks] in X. rewrite INIT in X. injection X as <-. destruct w as [|root t m kids]; [discriminate|]. cbn [wtask] in WT.
    assert (RW : orows (Some (WN root t m kids)) = rows_by pkids (WN root t m kids)) by (unfold orows; cbn [olist flat_map]; apply app_nil_r). assert (LV : oleaves (Some (WN root t m kids)) = leaves (WN root t m kids)) by (unfold oleaves; cbn [olist flat_map]; apply app_nil_r). rewrite RW in *. rewrite LV in *. set (w := WN root t m kids) in *.
    exists acts, root, (rows_by pkids w). unfold sat_print. rewrite E1. cbn [fst snd]. rewrite E2. cbn [obind]. rewrite E3. cbn [obind]. rewrite (AI root t m kids eq_refl). split; auto. split; [rewrite sat_plan_tplan, <- (number_plan v T 0), E1; reflexivity|]. split; [congruence|].
    assert (RP : map Tree_spec.rw_id (rows_by skids w) = map Tree_spec.rw_id (rows_by pkids w)). { unfold rows_by. clear. induction (subs w) as [|u l IH]; auto. cbn [flat_map]. rewrite !map_app, IH. destruct u; reflexivity. }
    assert (ND : NoDup (map wid (subs w))).
    { eapply Permutation_NoDup; [apply (ids_perm w acts); rewrite E4; reflexivity|]. unfold Tree_spec.ids. rewrite RP, S1, S2. apply nodup_app_iff. split; [apply seq_NoDup|]. split; [apply seq_NoDup|]. intros y Hy Hy'. apply in_seq in Hy, Hy'. lia. }
    assert (AC : forall me j, In me (p_methods P) -> ~ m_lt me j j) by (intros me j Hm; apply (wfm_acyclic _ _ (wf_methods _ WF me Hm))).
    split.
    - exists (rows_by skids w). split; [exact (printed_rows P w OK)|]. apply (wtree_ok P w ND OK acts root t m kids); auto; [now rewrite E4|]. rewrite E4. intros q1 q2 a b. apply (leaves_order P w ND OK ORD AC).
    - intros r Hr. unfold rows_by in Hr. apply in_flat_map in Hr as (u & Hu & Hr). destruct u as [|i t' m' kids']; [destruct Hr|]. destruct Hr as [<-|[]]. cbn [Tree_spec.rw_meth Tree_spec.rw_kids]. destruct (ORD _ _ _ _ Hu) as (me & M1 & M2). exists me, (map fst kids'). split; auto. split; auto. destruct (OK _ Hu) as (me' & M1' & _ & _ & M4). assert (me' = me) by congruence. subst me'.
      unfold pkids. assert (G : forall l, incl l kids' -> Forall2 (fun j c => exists t, nth_error (m_subs me) j = Some t /\ Tree_spec.named (rows_by pkids w) acts c t) (map fst l) (map (fun x => wid (snd x)) l)); [|apply G, incl_refl].
      induction l as [|[j u] l IHl]; intros IL; constructor; [|apply IHl; intros y Hy; apply IL; now right]. cbn [fst snd]. assert (Ij := IL (j, u) (or_introl eq_refl)). exists (wtask u). split; [now apply M4|]. assert (Hw : In u (subs w)) by (apply (subs_trans w _ _ Hu); now apply (kid_sub (WN i t' m' kids') j)).
      destruct u as [k a|k t'' m'' kids'']; [left|right].
      + rewrite E4. unfold leaves. apply in_flat_map. exists (WA k a). split; auto. now left.
      + eexists. split; [unfold rows_by; apply in_flat_map; exists (WN k t'' m'' kids''); split; [exact Hw|now left]|]. auto.
  Qed.
End Print.
