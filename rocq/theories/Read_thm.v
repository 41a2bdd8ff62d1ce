(** C19, C20, C87, C88: reading the input. *)
From Coq Require Import Ascii Sorted.
From Verif Require Import Base Htn_problem Htn_spec Htn_check Read_model Read_spec Read_proof.
From Verif Require Order_model Order_thm.
Local Open Scope Z_scope.

(** *** C19: lists of integers *)
Theorem int_list_read t l : list_line t l -> read_int_list t = ROk l.
Proof. apply read_int_list_ok. Qed.
Theorem nat_list_read t l : nat_list_line t l -> read_int_list t = ROk (map Z.of_nat l).
Proof. intros H. now apply read_int_list_ok, nat_line. Qed.
Theorem effect_list_read t es : effect_line t es ->
  read_cond_list t = ROk (map Z.of_nat (plain es), map (fun e => (map Z.of_nat (fst e), Z.of_nat (snd e))) (filter (fun e => negb (Nat.eqb (length (fst e)) 0)) es)).
Proof. apply read_cond_list_ok. Qed.

(** The loop without fuel: [s] and [x] are the stream and the variable at the test of the loop. *)
Inductive list_runs : sstream -> Z -> list Z -> list Z -> Prop :=
| lr_end : forall s v, list_runs s (-1) v v
| lr_step : forall s x v s' x' w, x <> -1 -> extract s (Some (if x <? 0 then x + 1 else x)) = (s', Some x') ->
    list_runs s' x' (v ++ [if x <? 0 then x + 1 else x]) w -> list_runs s x v w.

Lemma runs_unique s x v w w' : list_runs s x v w -> list_runs s x v w' -> w = w'.
Proof.
  intros H. revert w'. induction H as [s v|s x v s' x' w N E H IH]; intros w' H'; inversion H' as [|? ? ? s1 x1 ? N1 E1 R1]; subst; auto; try congruence.
  assert (X : (s', Some x') = (s1, Some x1)) by congruence. apply pair_equal_spec in X as [<- X]. assert (x' = x1) by congruence. subst x1. auto.
Qed.
Lemma runs_failed n : forall s z v, s_fail s = true -> z = -1 - Z.of_nat n -> list_runs s z v (v ++ map (fun k => z + 1 + Z.of_nat k) (seq 0 n)).
Proof.
  induction n as [|n IH]; intros s z v F E.
  - cbn. rewrite app_nil_r. replace z with (-1) by lia. constructor.
  - apply lr_step with s (z + 1).
    + lia.
    + unfold extract. rewrite F. destruct (Z.ltb_spec z 0); [reflexivity|lia].
    + destruct (Z.ltb_spec z 0); [|lia]. cbn [seq map]. rewrite <- seq_shift, map_map.
      replace (v ++ z + 1 + Z.of_nat 0 :: map (fun x => z + 1 + Z.of_nat (S x)) (seq 0 n)) with ((v ++ [z + 1]) ++ map (fun k => z + 1 + 1 + Z.of_nat k) (seq 0 n)).
      * apply IH; auto. lia.
      * rewrite <- app_assoc. cbn [app]. do 2 f_equal; [lia|]. apply map_ext. intros a. lia.
Qed.
Lemma runs_stuck s x v w : list_runs s x v w -> s_fail s = true -> 0 <= x -> False.
Proof.
  induction 1 as [|s x v s' x' w N E H IH]; intros F L; [lia|]. unfold extract in E. rewrite F in E. destruct (Z.ltb_spec x 0); [lia|]. injection E as <- <-. auto.
Qed.
Lemma loop_runs fuel : forall s x v w, (length (s_rest s) < fuel)%nat \/ s_fail s = true -> int_list_loop fuel s (Some x) v = ROk w <-> list_runs s x v w.
Proof.
  induction fuel as [|f IH]; intros s x v w L; cbn [int_list_loop].
  - destruct L as [L|L]; [lia|]. destruct (Z.eqb_spec x (-1)) as [->|N].
    + split; [intros [= <-]; constructor|]. intros H. f_equal. apply (runs_unique _ _ _ _ _ (lr_end s v) H).
    + rewrite L. destruct (Z.ltb_spec x 0).
      * assert (R := runs_failed (Z.to_nat (-1 - x)) s x v L ltac:(lia)). split; [intros [= <-]; exact R|]. intros H'. f_equal. exact (runs_unique _ _ _ _ _ R H').
      * split; [discriminate|]. intros R. now apply runs_stuck in R.
  - destruct (Z.eqb_spec x (-1)) as [->|N].
    + split; [intros [= <-]; constructor|]. intros H. f_equal. apply (runs_unique _ _ _ _ _ (lr_end s v) H).
    + destruct (s_fail s) eqn:F.
      * destruct (Z.ltb_spec x 0).
        -- assert (R := runs_failed (Z.to_nat (-1 - x)) s x v F ltac:(lia)). split; [intros [= <-]; exact R|]. intros H'. f_equal. exact (runs_unique _ _ _ _ _ R H').
        -- split; [discriminate|]. intros R. now apply runs_stuck in R.
      * destruct L as [L|L]; [|discriminate]. destruct (extract_some s (if x <? 0 then x + 1 else x)) as (s' & x' & E). rewrite E.
        assert (L' : (length (s_rest s') < f)%nat \/ s_fail s' = true). { destruct (extract_shrinks _ _ _ _ F E); [auto|left; lia]. }
        rewrite (IH s' x' _ w L'). split; [intros R; econstructor; eauto|]. intros R. inversion R as [|? ? ? s1 x1 ? N1 E1 R1]; subst; [congruence|].
        assert (X : (s', Some x') = (s1, Some x1)) by congruence. apply pair_equal_spec in X as [<- X]. assert (x' = x1) by congruence. now subst x1.
Qed.
(** The fuel of the model is enough: it yields exactly the results of the loop. *)
Theorem int_list_fuel t w : read_int_list t = ROk w <-> exists s x, extract (sopen t) None = (s, Some x) /\ list_runs s x [] w.
Proof.
  unfold read_int_list. destruct (extract (sopen t) None) as [s x] eqn:E. destruct x as [x|].
  - assert (L : (length (s_rest s) < length t)%nat \/ s_fail s = true). { destruct (extract_shrinks (sopen t) None s (Some x) eq_refl E); auto. }
    rewrite (loop_runs _ _ _ _ _ L). split; [eauto|]. intros (s1 & x1 & X & R). apply pair_equal_spec in X as [<- X]. assert (x1 = x) by congruence. now subst x1.
  - split.
    + destruct (length t); discriminate.
    + intros (s1 & x1 & X & _). apply pair_equal_spec in X as [_ X]. discriminate.
Qed.

(** The loop depends on the final -1: without it, it does not end. *)
Inductive only : text -> list Z -> Prop :=
| on_nil : forall w, Forall blank w -> only w []
| on_cons : forall w s z r l, Forall blank w -> int_text s z -> r = [] \/ (exists c r', r = c :: r' /\ blank c) -> only r l -> only (w ++ s ++ r) (z :: l).
Lemma only_stuck t zs : only t zs -> (forall z, In z zs -> 0 <= z) -> forall x v w, 0 <= x -> ~ list_runs (sopen t) x v w.
Proof.
  induction 1 as [b B|b s z r l B T R O IH]; intros P x v w L H; inversion H as [|? ? ? s' x' ? N E H']; subst; try lia; destruct (Z.ltb_spec x 0); try lia.
  - assert (X : extract (sopen b) (Some x) = ({| s_rest := []; s_fail := true |}, Some x)). { unfold extract. cbn [sopen s_fail s_rest]. rewrite <- (app_nil_r b), skip_blanks by auto. reflexivity. }
    assert (Y : (s', Some x') = ({| s_rest := []; s_fail := true |}, Some x)) by congruence. apply pair_equal_spec in Y as [-> Y]. assert (x' = x) by congruence. subst x'. now apply runs_stuck in H'.
  - assert (X := extract_ok b s z r (Some x) B T R). assert (Y : (s', Some x') = (sopen r, Some z)) by congruence. apply pair_equal_spec in Y as [-> Y]. assert (x' = z) by congruence. subst x'.
    revert H'. apply IH; [intros y Hy; apply P; now right|apply P; now left].
Qed.
Theorem int_list_unterminated t z zs : only t (z :: zs) -> (forall y, In y (z :: zs) -> 0 <= y) -> read_int_list t = RUndef /\ forall w, ~ exists s x, extract (sopen t) None = (s, Some x) /\ list_runs s x [] w.
Proof.
  intros O P. inversion O as [|b s ? r ? B T R O']; subst.
  assert (NR : forall w, ~ exists s0 x, extract (sopen (b ++ s ++ r)) None = (s0, Some x) /\ list_runs s0 x [] w).
  { intros w (s0 & x & E & H). assert (X := extract_ok b s z r None B T R). assert (Y : (s0, Some x) = (sopen r, Some z)) by congruence. apply pair_equal_spec in Y as [-> Y]. assert (x = z) by congruence. subst x.
    revert H. apply (only_stuck r zs O'); [intros y Hy; apply P; now right|apply P; now left]. }
  split; [|exact NR]. destruct (read_int_list (b ++ s ++ r)) as [w| |] eqn:E; auto.
  - exfalso. apply (NR w). now apply int_list_fuel.
  - exfalso. clear - E. unfold read_int_list in E. destruct (extract (sopen (b ++ s ++ r)) None) as [s0 x]. revert s0 x E. generalize (@nil Z) as v. generalize (length (b ++ s ++ r)) as f.
    induction f as [|f IH]; intros v s0 x; cbn [int_list_loop]; (destruct x as [x|]; [|discriminate]); destruct (x =? -1); try discriminate; destruct (s_fail s0); try (destruct (x <? 0); discriminate); try discriminate.
    destruct (extract s0 _) as [s1 x1]. apply IH.
Qed.
Example unterminated_ex : only (line [3; 4]) [3; 4].
Proof.
  apply (on_cons [" "%char] (show_int 3) 3 (line [4])); [repeat constructor|apply show_int_text; lia|right; eexists _, _; split; [reflexivity|now left]|].
  apply (on_cons [" "%char] (show_int 4) 4 []); [repeat constructor|apply show_int_text; lia|now left|repeat constructor].
Qed.

(** *** C87: the whole file *)
Theorem file_read t D : wf_description D -> describes t D -> exists c rms fl P,
  read_file t = ROk (c, Some (Z.of_nat (d_init D), rms, fl)) /\ problem_of c (Z.of_nat (d_init D)) rms = Some P /\ reads D P /\ wf_problem P /\
  cl_strict c = d_strict D /\ cl_mutex c = d_mutex D /\ cl_inv c = d_inv D /\
  length (cl_varof c) = d_nf D /\ (forall j o, nth_error (cl_varof c) j = Some o -> is_var_of (d_vars D) j o) /\
  rows (d_nf D) (p_prec P) (cl_pre2a c) /\ rows (d_nf D) (p_add P) (cl_add2a c) /\ rows (d_nf D) (p_del P) (cl_del2a c) /\
  (Order_model.fTO fl = true <-> forall m, In m (d_methods D) -> forall j k, (j < length (m_subs m))%nat -> (k < length (m_subs m))%nat -> j <> k -> m_lt m j k \/ m_lt m k j).
Proof.
  intros WD (ls & rest & FL & CL & ->).
  destruct (read_ok rest D (fopen (unlines ls ++ rest)) (getline (fopen (unlines ls ++ rest))) ls WD FL) as (c & rms & fl & E & ST & FR & RO); auto. { split; auto. }
  destruct (problem_of_ok D c rms ST FR) as (P & EP & RD & B). exists c, rms, fl, P. split; [exact E|]. split; auto. split; auto.
  split; [apply (similar_wf _ _ (reads_similar _ _ RD) B), dropped_wf, (wd_problem _ WD)|].
  destruct ST as (_ & LV & HV & S1 & S2 & S3 & _ & R1 & R2 & R3 & _). split; auto. split; auto. split; auto. split; auto. split; auto.
  split; [|split; [now rewrite (r_add _ _ RD)|split; [now rewrite (r_del _ _ RD)|]]].
  - eapply rows_same; [|exact R1]. exact (si_prec _ _ (reads_similar _ _ RD)).
  - destruct (Order_thm.total_flag_exact (map (ord_input (d_init D)) (d_methods D))) as (os & fl' & E' & TO & _).
    { intros x Hx. apply in_map_iff in Hx as (m & <- & Hm). pose proof (wf_methods _ (wd_problem _ WD) m Hm) as WM. split; cbn; [apply flat_wf; apply WM|]. intros y Hy. apply (wfm_acyclic _ _ WM y). now apply flat_chain in Hy. }
    rewrite RO in E'. assert (fl' = fl) by congruence. subst fl'. rewrite TO. split.
    + intros H m Hm j k Hj Hk N. destruct (H (ord_input (d_init D) m) (in_map _ _ _ Hm) j k Hj Hk N) as [C|C]; apply flat_chain in C; auto.
    + intros H x Hx. apply in_map_iff in Hx as (m & <- & Hm). intros j k Hj Hk N. destruct (H m Hm j k Hj Hk N); [left|right]; now apply flat_chain.
Qed.

(** The read problem has the solutions of the described one. *)
Theorem file_solutions t D : wf_description D -> describes t D -> unconditional D -> exists c rms fl P,
  read_file t = ROk (c, Some (Z.of_nat (d_init D), rms, fl)) /\ problem_of c (Z.of_nat (d_init D)) rms = Some P /\ wf_problem P /\
  (forall plan, solution P plan <-> solution (described D) plan) /\ forall plan, plan_cost P plan = plan_cost (described D) plan.
Proof.
  intros WD DS U. destruct (file_read t D WD DS) as (c & rms & fl & P & E & EP & RD & WP & _). exists c, rms, fl, P. split; auto. split; auto. split; auto.
  pose proof (reads_similar _ _ RD) as SI. rewrite (dropped_described _ U) in SI. split.
  - intros plan. split; apply similar_solution; auto. now apply similar_sym.
  - intros plan. unfold plan_cost, cost_of. now rewrite (si_cost _ _ SI).
Qed.

(** Every description with numbers in range can be written; what is written is read. *)
Theorem written_file_read D : wf_description D -> in_range D -> unconditional D -> exists c rms fl P,
  read_file (write D) = ROk (c, Some (Z.of_nat (d_init D), rms, fl)) /\ problem_of c (Z.of_nat (d_init D)) rms = Some P /\
  forall plan, solution P plan <-> solution (described D) plan.
Proof.
  intros WD R U. destruct (file_solutions (write D) D WD (write_describes D R) U) as (c & rms & fl & P & E & EP & _ & S & _). exists c, rms, fl, P. auto.
Qed.

Module Ex.
  Definition act c p a d := {| da_cost := c; da_prec := p; da_add := map (fun f => ([], f)) a; da_del := map (fun f => ([], f)) d |}.
  (** Two actions, one of which has a precondition twice; the orderings of the method contain a redundant pair. *)
  Definition D1 := {| d_nf := 3; d_vars := [(0, 1); (2, 2)]; d_strict := [[0; 1]%Z]; d_mutex := []; d_inv := [[-1; -2; 2]%Z];
    d_acts := [act 3 [0; 2; 0] [1] [0]; act 12 [1] [0] []]; d_s0 := [0; 2]; d_goal := [0; 1]; d_abstract := [false; false; true]; d_init := 2;
    d_methods := [{| m_task := 2; m_subs := [0; 1; 1]; m_ord := [(0, 1); (0, 2); (1, 2)] |}] |}%nat.
  Definition range_check (D : description) : bool := forallb (forallb (fun z => (-2147483648 <=? z)%Z && (z <=? 2147483647)%Z)) (file_numbers D).
  Lemma range_check_ok D : range_check D = true -> in_range D.
  Proof. unfold range_check. intros H l z Hl Hz. rewrite forallb_forall in H. specialize (H l Hl). rewrite forallb_forall in H. specialize (H z Hz). lia. Qed.
  Lemma wf1 : wf_description D1.
  Proof. constructor; [apply problem_check_ok; reflexivity|]. intros v [<-|[<-|[]]]; cbn; lia. Qed.
  Lemma range1 : in_range D1. Proof. apply range_check_ok. reflexivity. Qed.
  Lemma unc1 : unconditional D1. Proof. intros a e [<-|[<-|[]]]; cbn; intros H; repeat (destruct H as [<-|H]; [reflexivity|]); destruct H. Qed.
  Example desc1 : describes (write D1) D1. Proof. apply write_describes, range1. Qed.
  (** Negative elements are shifted by one, duplicate preconditions disappear, the orderings are reduced. *)
  Example read1 : exists c rms fl, read_file (write D1) = ROk (c, Some (2, rms, fl)) /\ cl_inv c = [[-1; -2; 2]] /\ map ra_prec (cl_acts c) = [[0; 2]; [1]] /\
    map rm_ord rms = [[0; 1; 1; 2]%nat] /\ cl_pre2a c = [[0]; [1]; [0]]%nat /\ cl_varof c = [Some 0; Some 0; Some 1]%nat /\ Order_model.fTO fl = true.
  Proof. vm_compute. eexists _, _, _. repeat split. Qed.

  (** *** A conditional effect: the second fact is added if the first holds. *)
  Definition D2 := {| d_nf := 2; d_vars := []; d_strict := []; d_mutex := []; d_inv := [];
    d_acts := [{| da_cost := 1; da_prec := []; da_add := [([0], 1)]; da_del := [] |}]; d_s0 := [0]; d_goal := [1]; d_abstract := [false; true]; d_init := 1;
    d_methods := [{| m_task := 1; m_subs := [0]; m_ord := [] |}] |}%nat.
  Lemma wf2 : wf_description D2.
  Proof. constructor; [apply problem_check_ok; reflexivity|]. intros v []. Qed.
  Lemma range2 : in_range D2. Proof. apply range_check_ok. reflexivity. Qed.
End Ex.

(** *** C20: conditional effects are dropped *)
Theorem conditional_effects_refuted : exists D a c rms fl P, wf_description D /\ describes (write D) D /\ d_acts D = [a] /\
  read_file (write D) = ROk (c, Some (Z.of_nat (d_init D), rms, fl)) /\ problem_of c (Z.of_nat (d_init D)) rms = Some P /\
  (forall f, In f (d_goal D) -> cond_result a (fun f => In f (d_s0 D)) f) /\ ~ goal_state P (result P (initial_state P) 0) /\ forall plan, ~ solution P plan.
Proof.
  assert (DS := write_describes _ Ex.range2). destruct (file_read _ _ Ex.wf2 DS) as (c & rms & fl & P & E & EP & RD & _).
  exists Ex.D2, {| da_cost := 1; da_prec := []; da_add := [([0], 1)]; da_del := [] |}%nat, c, rms, fl, P.
  split; [apply Ex.wf2|]. split; [exact DS|]. split; [reflexivity|]. split; [exact E|]. split; [exact EP|]. clear E EP DS.
  assert (NA : forall a f, ~ adds P a f). { intros a f (l & El & I). rewrite (r_add _ _ RD) in El. destruct a as [|[|a]]; cbn in El; try discriminate. injection El as <-. destruct I. }
  split; [|split].
  - intros f [<-|[]]. left. exists ([0], 1)%nat. split; [now left|]. split; [reflexivity|]. intros g [<-|[]]. now left.
  - intros G. destruct (G 1%nat) as [A|[A _]]; [rewrite (r_goal _ _ RD); now left|now apply NA in A|]. unfold initial_state in A. rewrite (r_s0 _ _ RD) in A. destruct A as [A|[]]. discriminate.
  - intros plan (tn & L & _ & _ & _ & _ & _ & G). specialize (G 1%nat ltac:(rewrite (r_goal _ _ RD); now left)).
    assert (M : forall plan s, after P s plan 1%nat -> s 1%nat). { induction plan0 as [|a p IH]; intros s; cbn [after]; auto. intros H. apply IH in H as [H|[H _]]; auto. now apply NA in H. }
    apply M in G. unfold initial_state in G. rewrite (r_s0 _ _ RD) in G. destruct G as [G|[]]. discriminate.
Qed.

(** *** C88: the tables from facts to actions are those of the read problem *)
Theorem fact_tables_exact t D : wf_description D -> describes t D -> exists c rms fl P,
  read_file t = ROk (c, Some (Z.of_nat (d_init D), rms, fl)) /\ problem_of c (Z.of_nat (d_init D)) rms = Some P /\
  forall f, (f < p_nfacts P)%nat -> exists pr ad de, nth_error (cl_pre2a c) f = Some pr /\ nth_error (cl_add2a c) f = Some ad /\ nth_error (cl_del2a c) f = Some de /\
    StronglySorted lt pr /\ StronglySorted lt ad /\ StronglySorted lt de /\
    (forall a, In a pr <-> precs P a f) /\ (forall a, In a ad <-> adds P a f) /\ (forall a, In a de <-> dels P a f).
Proof.
  intros WD DS. destruct (file_read t D WD DS) as (c & rms & fl & P & E & EP & RD & WP & _ & _ & _ & _ & _ & R1 & R2 & R3 & _). exists c, rms, fl, P. split; auto. split; auto.
  intros f Hf. rewrite (r_nf _ _ RD) in Hf. destruct R1 as [L1 R1], R2 as [L2 R2], R3 as [L3 R3].
  destruct (get_some (cl_pre2a c) f ltac:(lia)) as (pr & Ep). destruct (get_some (cl_add2a c) f ltac:(lia)) as (ad & Ea). destruct (get_some (cl_del2a c) f ltac:(lia)) as (de & Ed).
  destruct (R1 f pr Ep), (R2 f ad Ea), (R3 f de Ed). exists pr, ad, de. repeat (split; [assumption|]). assumption.
Qed.

Print Assumptions int_list_read.
Print Assumptions effect_list_read.
Print Assumptions int_list_fuel.
Print Assumptions int_list_unterminated.
Print Assumptions file_read.
Print Assumptions file_solutions.
Print Assumptions written_file_read.
Print Assumptions conditional_effects_refuted.
Print Assumptions fact_tables_exact.
Print Assumptions nat_list_read.
