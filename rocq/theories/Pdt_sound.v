(** What the true variables of the tree spell: a derivation of the initial task. *)
From Coq Require Import Sorting.Sorted.
From Verif Require Import Base Htn_problem Htn_spec To_spec To_sem Sat_spec Sog_spec Sf_proof Tab_proof Pdt_model Pdt_spec Pdt_tree Pdt_expand Pdt_prune Pdt_leafs Pdt_vars Pdt_clause Pdt_dec.

(** The plan below a node. *)
Definition plan_at (v : assignment) (d : pnode) : list nat := map snd (filter (fun x => v (fst x)) (leaf_atoms d)).
Fixpoint tplan (v : assignment) (t : pdt) : list nat :=
  match t with PNode d ch => match ch with [] => plan_at v d | _ => flat_map (tplan v) ch end end.
Lemma tplan_leafs v : forall t q, flat_map (fun x => plan_at v (snd x)) (leafs t q) = tplan v t.
Proof.
  induction t as [d ch IH] using pdt_rect'. intros q. destruct ch as [|u0 r0]; [cbn [leafs tplan flat_map snd]; apply app_nil_r|]. set (ch := u0 :: r0) in *.
  change (leafs (PNode d ch) q) with ((fix go (l : list pdt) (i : nat) {struct l} := match l with [] => [] | u :: r => leafs u (i :: q) ++ go r (S i) end) ch 0). change (tplan v (PNode d ch)) with (flat_map (tplan v) ch).
  clearbody ch. generalize 0 as b. induction IH as [|u r Hu IH IHr]; intros b; auto. cbn [flat_map]. now rewrite flat_map_app, Hu, IHr.
Qed.
Lemma sat_plan_tplan v T : sat_plan v T = tplan v T.
Proof. rewrite <- (tplan_leafs v T []). unfold sat_plan. induction (leafs T []) as [|[q d] r IH]; auto. cbn [flat_map snd]. now rewrite IH. Qed.
Lemma leaf_atoms_in d x p : In (x, p) (leaf_atoms d) <-> exists i, nth_error (pn_pvar d) i = Some (Some x) /\ nth_error (pn_prims d) i = Some p.
Proof.
  unfold leaf_atoms. rewrite in_flat_map. split.
  - intros ([o p'] & H1 & H2). apply combine_in in H1 as (i & I1 & I2). destruct o as [y|]; [|destruct H2]. destruct H2 as [E|[]]. injection E as <- <-. eauto.
  - intros (i & I1 & I2). exists (Some x, p). split; [apply combine_in; eauto|now left].
Qed.
Lemma plan_at_none v d : (forall i, ~ on v true d i) -> plan_at v d = [].
Proof.
  intros H. unfold plan_at. assert (Z : filter (fun x => v (fst x)) (leaf_atoms d) = []); [|now rewrite Z]. assert (G : forall x, In x (leaf_atoms d) -> v (fst x) = false).
  { intros [x p] Hx. apply leaf_atoms_in in Hx as (i & I1 & _). cbn [fst]. destruct (v x) eqn:E; auto. exfalso. apply (H i). exists x. auto. }
  induction (leaf_atoms d) as [|x l IH]; auto. cbn [filter]. rewrite (G x (or_introl eq_refl)). apply IH. intros y Hy. apply G. now right.
Qed.
Lemma plan_at_one v d p x : length (pn_pvar d) = length (pn_prims d) -> on v true d p -> nth_error (pn_prims d) p = Some x -> (forall i, on v true d i -> i = p) -> plan_at v d = [x].
Proof.
  intros L (y & Hy & Ty) Hx U. unfold plan_at, leaf_atoms. cbn [cvars] in Hy.
  assert (U' : forall i z, nth_error (pn_pvar d) i = Some (Some z) -> v z = true -> i = p) by (intros i z Hz Tz; apply U; exists z; auto). clear U.
  revert L p Hy Hx U'. generalize (pn_prims d) as r. induction (pn_pvar d) as [|o l IH]; intros r L p Hy Hx U; [destruct p; discriminate|]. destruct r as [|z r]; [discriminate|]. cbn [combine flat_map]. rewrite filter_app, map_app.
  destruct p as [|p]; cbn [nth_error] in *.
  - injection Hy as ->. injection Hx as ->. cbn [flat_map app filter fst map]. rewrite Ty. cbn [map snd app]. f_equal. clear IH. assert (G : forall (l : list (option Z)) (r : list nat), (forall i z, nth_error l i = Some (Some z) -> v z = false) -> map snd (filter (fun x => v (fst x)) (flat_map (fun '(o, p) => match o with Some v => [(v, p)] | None => [] end) (combine l r))) = []).
    { clear. induction l as [|o l IH]; intros [|z r] H; auto. cbn [combine flat_map]. rewrite filter_app, map_app, IH by (intros i w Hw; apply (H (S i) w Hw)). destruct o as [w|]; auto. cbn [filter fst]. now rewrite (H 0 w eq_refl). }
    apply G. intros i z Hz. destruct (v z) eqn:E; auto. specialize (U (S i) z Hz E). discriminate.
  - rewrite (IH r ltac:(cbn in L; lia) p Hy Hx) by (intros i w Hw Tw; specialize (U (S i) w Hw Tw); lia). destruct o as [w|]; auto. cbn [filter fst]. destruct (v w) eqn:E; auto. specialize (U 0 w eq_refl E). discriminate.
Qed.

Lemma sorted_concat {A} (f : nat -> list A) n : forall b vs, StronglySorted lt vs -> (forall c, In c vs -> b <= c < b + n) -> (forall c, b <= c < b + n -> ~ In c vs -> f c = []) -> flat_map f (seq b n) = flat_map f vs.
Proof.
  induction n as [|n IH]; intros b vs SS IN NO.
  - destruct vs as [|c vs]; auto. specialize (IN c (or_introl eq_refl)). lia.
  - cbn [seq flat_map]. destruct vs as [|c vs].
    + rewrite (NO b) by (auto; lia). cbn [app]. apply (IH (S b) []); auto; [intros c []|]. intros c Hc. apply NO. lia.
    + inversion SS as [|? ? S1 S2]; subst. rewrite Forall_forall in S2. assert (Lc := IN c (or_introl eq_refl)). destruct (Nat.eq_dec c b) as [->|N].
      * cbn [flat_map]. f_equal. apply IH; auto.
        -- intros c' H'. assert (b < c') by auto. specialize (IN c' (or_intror H')). lia.
        -- intros c' L H'. apply NO; [lia|]. intros [E|E]; [lia|auto].
      * rewrite (NO b); [cbn [app]; apply IH; auto; [|intros c' L H'; apply NO; [lia|auto]]|lia|].
        -- intros c' [<-|H']; [lia|]. assert (c < c') by auto. specialize (IN c' (or_intror H')). lia.
        -- intros [E|E]; [lia|]. assert (c < b) by auto. lia.
Qed.
Lemma placement_sorted n o vs : placement n o vs -> StronglySorted lt vs /\ forall c, In c vs -> c < n.
Proof.
  intros (_ & H1 & H2). split; auto. clear H1. induction vs as [|c vs IH]; constructor.
  - apply IH. intros i j L1 L2. apply (H2 (S i) (S j)); cbn; lia.
  - apply Forall_forall. intros c' H'. apply In_nth with (d := 0) in H' as (j & Lj & <-). apply (H2 0 (S j)); cbn; lia.
Qed.
Lemma flat_map_nth {A B} (f : A -> list B) (l : list A) : flat_map (fun c => match nth_error l c with Some x => f x | None => [] end) (seq 0 (length l)) = flat_map f l.
Proof.
  assert (G : forall l b, flat_map (fun c => match nth_error l (c - b) with Some x => f x | None => [] end) (seq b (length l)) = flat_map f l).
  { clear l. induction l as [|x l IH]; intros b; auto. cbn [length seq flat_map]. rewrite Nat.sub_diag. cbn [nth_error]. f_equal. rewrite <- (IH (S b)). rewrite !flat_map_concat_map. f_equal. apply map_ext_in. intros c Hc. apply in_seq in Hc. replace (c - b) with (S (c - S b)) by lia. reflexivity. }
  rewrite <- (G l 0). rewrite !flat_map_concat_map. f_equal. apply map_ext. intros c. now rewrite Nat.sub_0_r.
Qed.

Section Sound.
  Context {KI : kind}.
  Variables (P : problem) (F : flags) (T : pdt) (v : assignment).
  Hypothesis TO : tree_ok P T.
  Hypothesis FI : forall q t, at_node T q t -> filled P F q (dat t).
  Hypothesis VC : tall vcond T.
  Hypothesis LEAF : forall q d a, at_node T q (PNode d []) -> a < length (pn_abs d) -> In (IA q a) F.
  Hypothesis UN : forall q t, at_node T q t -> unpruned v F q (dat t).
  Hypothesis NODE : forall q d ch, at_node T q (PNode d ch) -> pn_exp d = true -> task_vars d <> [] -> unique_task v d /\ unique_meth v d /\ sem v F q d ch.
  Hypothesis ROOT : pn_prims (dat T) = [] /\ length (pn_abs (dat T)) = 1.

  Lemma on_vars d pr i : on v pr d i -> task_vars d <> [].
  Proof. intros (x & Hx & _) E. assert (In x (task_vars d)) by (apply task_vars_in; eauto). rewrite E in H. destruct H. Qed.
  (** Where a true task of a child comes from. *)
  Lemma child_on q d ch c u pr i : at_node T q (PNode d ch) -> nth_error ch c = Some u -> on v pr (dat u) i -> unique_task v d /\ unique_meth v d /\ sem v F q d ch /\
    ((exists p j, on v true d p /\ pr = true /\ nth_error (pn_pos d) p = Some (c, i, j)) \/
     (exists a m j, onm v d a m /\ on v false d a /\ find_ptr d a m c = Some {| cp_prim := pr; cp_task := i; cp_cause := j |})).
  Proof.
    intros A Hc O. assert (Au := at_child T q _ c u A Hc). assert (N := alive_mother T VC c q u d ch Au A (on_vars _ _ _ O)). destruct (at_child_data P T TO q d ch c u A Hc) as (Ee & NO & E'). destruct (NODE q d ch A Ee N) as (N1 & N2 & N3). split; auto. split; auto. split; auto.
    destruct N3 as (_ & [S2 _] & S5 & _). destruct (S5 c u pr i Hc O) as (cs & j & [[a|] m] & K1 & K2 & _ & K4); cbn [oncause] in K4; assert (Z := no_cause _ _ _ NO c (dat u) pr i cs j _ E' K1 K2).
    - right. exists a, m, j. destruct Z as (Z & _). split; auto. split; auto. apply (S2 a m K4).
    - left. exists m, j. destruct Z as [-> Z]. auto.
  Qed.
  Lemma unique_all q : forall t, at_node T q t -> unique_task v (dat t).
  Proof.
    destruct q as [|c q]; intros t A.
    - assert (Z : T = t) by (unfold at_node in A; cbn in A; congruence). subst t. destruct ROOT as [R1 R2]. intros pr i pr' i' (x & Hx & _) (y & Hy & _). assert (Lp := fl_len _ _ _ _ (FI [] T A) true). assert (La := fl_len _ _ _ _ (FI [] T A) false). cbn [cvars ctasks] in Lp, La. rewrite R1 in Lp. rewrite R2 in La.
      destruct (pn_pvar (dat T)) eqn:E; [|discriminate]. destruct pr; [cbn in Hx; rewrite E in Hx; destruct i; discriminate|]. destruct pr'; [cbn in Hy; rewrite E in Hy; destruct i'; discriminate|]. cbn in Hx, Hy. apply get_lt in Hx. apply get_lt in Hy. split; auto. lia.
    - destruct (at_mother T c q t A) as ([d ch] & A' & Hc). cbn [kids] in Hc. intros pr i pr' i' O1 O2. destruct (child_on q d ch c t pr i A' Hc O1) as (U1 & U2 & _ & K1). destruct (child_on q d ch c t pr' i' A' Hc O2) as (_ & _ & _ & K2).
      destruct K1 as [(p & j & P1 & -> & P3)|(a & m & j & P1 & P2 & P3)], K2 as [(p' & j' & P1' & -> & P3')|(a' & m' & j' & P1' & P2' & P3')].
      + destruct (U1 _ _ _ _ P1 P1') as [_ ->]. split; auto. congruence.
      + destruct (U1 _ _ _ _ P1 P2') as [X _]. discriminate.
      + destruct (U1 _ _ _ _ P2 P1') as [X _]. discriminate.
      + destruct (U2 _ _ _ _ P1 P1') as [-> ->]. rewrite P3 in P3'. injection P3' as -> -> _. auto.
  Qed.

End Sound.

Section Plan.
  Existing Instance to_kind.
  Variables (P : problem) (F : flags) (T : pdt) (v : assignment).
  Hypothesis TO : tree_ok P T.
  Hypothesis FI : forall q t, at_node T q t -> filled P F q (dat t).
  Hypothesis VC : tall vcond T.
  Hypothesis LEAF : forall q d a, at_node T q (PNode d []) -> a < length (pn_abs d) -> In (IA q a) F.
  Hypothesis UN : forall q t, at_node T q t -> unpruned v F q (dat t).
  Hypothesis NODE : forall q d ch, at_node T q (PNode d ch) -> pn_exp d = true -> task_vars d <> [] -> unique_task v d /\ unique_meth v d /\ sem v F q d ch.
  Hypothesis ROOT : pn_prims (dat T) = [] /\ length (pn_abs (dat T)) = 1.

  (** The three cases of a node: nothing, an action, an abstract task. *)
  Lemma node_plan : forall t q, at_node T q t ->
    ((forall pr i, ~ on v pr (dat t) i) -> tplan v t = []) /\
    (forall p x, on v true (dat t) p -> nth_error (pn_prims (dat t)) p = Some x -> tplan v t = [x]) /\
    (forall a x, on v false (dat t) a -> nth_error (pn_abs (dat t)) a = Some x -> exists h, derives P h x (tplan v t)).
  Proof.
    induction t as [d ch IH] using pdt_rect'. intros q A. cbn [dat]. assert (UQ := unique_all P F T v TO FI VC NODE ROOT q _ A). cbn [dat] in UQ. assert (FL := FI q _ A). cbn [dat] in FL. assert (TK := at_ok P T TO q _ A). apply tree_ok_node in TK as (TK & _ & _).
    destruct ch as [|u0 r0] eqn:Ech.
    - cbn [tplan]. split; [intros H; apply plan_at_none; auto|]. split.
      + intros p x O Hx. apply (plan_at_one v d p x); auto; [exact (fl_len _ _ _ _ FL true)|]. intros i Oi. destruct (UQ _ _ _ _ Oi O); auto.
      + intros a x O Hx. exfalso. apply (UN q _ A false a); [exact O|]. apply (LEAF q d a A). now apply get_lt in Hx.
    - assert (NE : ch <> []) by (rewrite Ech; discriminate). change (tplan v (PNode d (u0 :: r0))) with (flat_map (tplan v) (u0 :: r0)). rewrite <- Ech in *. clear Ech u0 r0.
      destruct (at_kids P T TO q d ch A NE) as [Ee NO]. set (f := fun c => match nth_error ch c with Some u => tplan v u | None => [] end).
      assert (FM : flat_map (tplan v) ch = flat_map f (seq 0 (length ch))) by (symmetry; apply flat_map_nth).
      assert (CH : forall c u, nth_error ch c = Some u -> at_node T (c :: q) u) by (intros c u Hc; exact (at_child T q _ c u A Hc)).
      assert (IHc : forall c u, nth_error ch c = Some u -> ((forall pr i, ~ on v pr (dat u) i) -> tplan v u = []) /\
         (forall p x, on v true (dat u) p -> nth_error (pn_prims (dat u)) p = Some x -> tplan v u = [x]) /\
         (forall a x, on v false (dat u) a -> nth_error (pn_abs (dat u)) a = Some x -> exists h, derives P h x (tplan v u))).
      { intros c u Hc. rewrite Forall_forall in IH. apply (IH u (nth_error_In _ _ Hc) (c :: q)). auto. }
      split; [|split].
      + intros NONE. rewrite FM. apply (sorted_concat f _ 0 []); [constructor|intros c []|]. intros c Lc _. unfold f. destruct (nth_error ch c) as [u|] eqn:Hc; auto. apply (IHc c u Hc). intros pr i O. destruct (child_on P F T v TO VC NODE q d ch c u pr i A Hc O) as (_ & _ & _ & [(p & j & O' & _)|(a & m & j & _ & O' & _)]); exact (NONE _ _ O').
      + intros p x O Hx. destruct (NODE q d ch A Ee (on_vars v _ _ _ O)) as (_ & _ & (S1 & _)). assert (Lp : p < length (pn_pos d)) by (rewrite (no_pos _ _ _ NO); now apply get_lt in Hx). destruct (nth_error (pn_pos d) p) as [[[c i] j]|] eqn:Ep; [|apply nth_error_None in Ep; lia].
        destruct (no_pos_ok _ _ _ NO p c i j Ep) as (u' & cs & K1 & K2 & _). rewrite nth_error_map in K1. destruct (nth_error ch c) as [u|] eqn:Hc; [|discriminate]. injection K1 as <-. destruct (S1 p c i j u O Ep Hc) as [Oi _].
        rewrite FM, (sorted_concat f _ 0 [c]).
        * cbn [flat_map]. rewrite app_nil_r. unfold f. rewrite Hc. apply (IHc c u Hc) with (p := i); auto. congruence.
        * constructor; constructor.
        * intros c' [<-|[]]. apply get_lt in Hc. lia.
        * intros c' Lc N'. unfold f. destruct (nth_error ch c') as [u'|] eqn:Hc'; auto. apply (IHc c' u' Hc'). intros pr i' O'. destruct (child_on P F T v TO VC NODE q d ch c' u' pr i' A Hc' O') as (_ & _ & _ & [(p' & j' & O2 & _ & E2)|(a & m & j' & _ & O2 & _)]); destruct (UQ _ _ _ _ O O2) as [X Y]; [|discriminate]. subst p'. rewrite Ep in E2. injection E2 as -> _ _. apply N'. now left.
      + intros a x O Hx. destruct (NODE q d ch A Ee (on_vars v _ _ _ O)) as (_ & UM & (_ & [S2 S4] & _)). destruct (S4 a O) as (m & OM). destruct (S2 a m OM) as [_ SM].
        destruct (fl_meth _ _ _ _ FL Ee) as [_ FM']. destruct (FM' a x Hx) as (mvs & M1 & M2 & _). assert (Lm : m < nmeth P x). { destruct OM as (mvs' & y & Y1 & Y2 & _). rewrite M1 in Y1. injection Y1 as <-. apply get_lt in Y2. lia. }
        assert (XM : exists mi, nth_error (methods_of P x) m = Some mi). { unfold nmeth in Lm. destruct (nth_error (methods_of P x) m) eqn:E; eauto. apply nth_error_None in E. lia. } destruct XM as (mi & Hmi).
        destruct (no_meth _ _ _ NO a x m mi Hx Hmi) as (me & o & vs & Q1 & Q2 & Q3 & Q4 & Q5 & Q6). rewrite map_length in Q4. destruct (placement_sorted _ _ _ Q4) as [SS IN].
        assert (EQ : flat_map (tplan v) ch = flat_map f vs).
        { rewrite FM. apply sorted_concat; auto; [intros c Hc; specialize (IN c Hc); lia|]. intros c Lc N'. unfold f. destruct (nth_error ch c) as [u|] eqn:Hc; auto. apply (IHc c u Hc). intros pr i' O'. destruct (child_on P F T v TO VC NODE q d ch c u pr i' A Hc O') as (_ & _ & _ & [(p' & j' & O2 & _ & E2)|(a' & m' & j' & OM' & O2 & E2)]).
          - destruct (UQ _ _ _ _ O O2) as [X Y]. discriminate.
          - destruct (UM _ _ _ _ OM OM') as [<- <-]. apply N'. exact (Q6 c _ E2). }
        assert (DV : exists h, Forall2 (fun j p => exists u, nth_error (m_subs me) j = Some u /\ derives P h u p) o (map f vs)).
        { clear Q3 Q4 Q6 SS EQ. induction Q5 as [|j c o vs HR Q5 IHQ]; [exists 0; constructor|]. destruct IHQ as (h1 & Hh1); [intros c' H'; apply IN; now right|].
          destruct HR as (u' & k & y & K1 & K2 & K3 & K4). rewrite nth_error_map in K1. destruct (nth_error ch c) as [u|] eqn:Hc; [|discriminate]. injection K1 as <-. assert (Z := SM c u Hc). rewrite K2 in Z.
          assert (D : exists h, derives P h y (f c)).
          { unfold f. rewrite Hc. destruct (IHc c u Hc) as (_ & Hp & Ha). destruct k as [[|] i j']; cbn [cp_prim cp_task ctasks] in *; [|eapply Ha; eauto]. exists 0. left. split; [|eapply Hp; eauto].
            assert (TKu := at_ok P T TO (c :: q) u (CH c u Hc)). destruct u as [du chu]. apply tree_ok_node in TKu as (TKu & _). apply (to_prims _ _ TKu). now apply nth_error_In in K4. }
          destruct D as (h2 & Hh2). exists (Nat.max h1 h2). cbn [map]. constructor.
          - exists y. split; auto. exact (derives_mono P h2 _ y _ (Nat.le_max_r _ _) Hh2).
          - clear -Hh1. induction Hh1 as [|j c o l (u & U1 & U2) _ IH]; constructor; auto. exists u. split; auto. exact (derives_mono P h1 _ u _ (Nat.le_max_l _ _) U2). }
        destruct DV as (h & DV). exists (S h). right. exists me, o, (map f vs). split; [now apply nth_error_In in Q1|]. split; auto. split; auto. split; auto. now rewrite EQ, flat_map_concat_map.
  Qed.
End Plan.
