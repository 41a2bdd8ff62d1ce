(** Theorems about the bound with which the search of the translation starts, and about the search. *)
From Coq Require Import ZArith.
From Verif Require Import Base Htn_problem Htn_model Htn_spec Htn_sem Htn_check To_spec To_sem Tab_model Tab_thm Mix_model Mix_spec Mix_proof Mix_thm
  Sas_model Sas_spec Sas_proof Sas_sim Sas_act Sas_rep Sas_stack Sas_ops Sas_run Sas_thm Push_model Push_spec Push_thm Pgb_model Pgb_spec Pgb_proof Pgb_run Pgb_low.
Local Open Scope Z_scope.

(** ** The first bound *)
Lemma af_mix P V : to_base P V -> Mix_spec.actions_first P.
Proof. intros TB. exact (tb_act _ _ TB). Qed.

Definition reached_values P to fuel T : Prop := minimal_bound P to fuel = PDone T \/ exists M q, minimal_bound P to fuel = PMore T M q.
Lemma result_inv P to fuel T : wf_problem P -> Mix_spec.actions_first P -> reached_values P to fuel T ->
  exists rs M q, order_methods P to = Some rs /\ inv P rs T M q /\ (minimal_bound P to fuel = PDone T -> q = []).
Proof.
  intros WP AF H. unfold reached_values, minimal_bound in *. destruct (order_methods P to) as [rs|] eqn:EO; [|destruct H as [|(? & ? & ?)]; discriminate]. assert (RS := order_shape P to rs EO). destruct (st_rows P WP) as (st & num & E & R). rewrite E in *.
  destruct (mix_queue_ok P AF st R) as (q0 & Eq & _). rewrite Eq in *. assert (I := loop_inv P WP AF st R rs RS fuel _ _ _ (inv_init P WP AF st R rs q0 Eq)).
  exists rs. destruct H as [H|(M & q & H)]; rewrite H in *.
  - destruct I as (M & I). exists M, []. auto.
  - exists M, q. split; auto. split; auto. discriminate.
Qed.

(** C138: the values are lower bounds, when the computation ends and at any time before *)
Theorem values_lower : forall P fuel T t k p, wf_problem P -> Mix_spec.actions_first P -> listed_in_order P -> reached_values P true fuel T ->
  carried P t k p -> nth t T 0 <= Z.of_nat k.
Proof.
  intros P fuel T t k p WP AF LO H C. destruct (result_inv P true fuel T WP AF H) as (rs & M & q & EO & I & _). destruct (order_total P WP LO) as (rs' & EO' & RT). rewrite EO in EO'. injection EO' as <-.
  exact (proj1 (lower P WP rs RT T M q I) t k p C).
Qed.
(** The task written for a smaller bound than the first one has no plan *)
Theorem bound_lower : forall P V fuel T b pgb FT pl, to_base P V -> s0_found P V -> single_effects P V -> listed_in_order P -> leading_agree P V ->
  minimal_bound P true fuel = PDone T -> first_bound P T = Some b -> (1 <= pgb)%nat -> translate P V pgb = Some FT -> fd_plan FT pl -> 1 <= b <= Z.of_nat pgb.
Proof.
  intros P V fuel T b pgb FT pl TB S0 SE LO LA H FB PG ET FP. destruct (proj1 (bound_exact P V TB S0 SE LO LA pgb FT (printed (map fst (effective pl))) PG ET) (ex_intro _ pl (conj FP eq_refl))) as [_ C].
  assert (X := values_lower P fuel T _ _ _ (tb_wf _ _ TB) (af_mix P V TB) LO (or_introl H) C). unfold first_bound in FB. apply obind_some in FB as (i & E & FB). injection FB as <-. apply get_at0 in E. fold (at0 T (p_init P)) in X. rewrite E in X.
  destruct (Z.ltb_spec i 1); lia.
Qed.

(** C139: the computation ends for every problem, regularly or with an overflow *)
Theorem bound_ends : forall P to, wf_problem P -> Mix_spec.actions_first P -> exists fuel, (exists T, minimal_bound P to fuel = PDone T) \/ minimal_bound P to fuel = PUndef.
Proof.
  intros P to WP AF. unfold minimal_bound. destruct (order_methods P to) as [rs|] eqn:EO; [|exists O; auto]. assert (RS := order_shape P to rs EO). destruct (st_rows P WP) as (st & num & E & R). rewrite E.
  destruct (mix_queue_ok P AF st R) as (q0 & Eq & _). rewrite Eq. assert (I := inv_init P WP AF st R rs q0 Eq).
  set (k := Z.to_nat ((Z.of_nat (length (p_prim P)) + Z.of_nat (length (p_methods P))) * int_max - weight P (pgb_init P) (repeat 0 (length (p_methods P))))).
  exists (length q0 + k * S (length (p_methods P)))%nat. destruct (pgb_loop P st rs _ _ _ _) as [T| |T' M' q'] eqn:EL; eauto. exfalso.
  refine (loop_ends P WP AF st R rs RS k _ _ _ I _ _ (Nat.le_refl _) T' M' q' EL). unfold k. lia.
Qed.

(** ... regularly if the tasks have refinements that do not need too many cells *)
Theorem bound_defined : forall P c, wf_problem P -> Mix_spec.actions_first P -> listed_in_order P -> small_refinements P int_max c ->
  exists fuel T b, minimal_bound P true fuel = PDone T /\ first_bound P T = Some b.
Proof.
  intros P c WP AF LO B. destruct (bound_ends P true WP AF) as (fuel & [(T & H)|H]).
  - exists fuel, T. destruct (result_inv P true fuel T WP AF (or_introl H)) as (rs & M & q & _ & I & _). unfold first_bound. assert (L : (p_init P < length T)%nat). { rewrite (i_lT _ _ _ _ _ I). assert (X := wf_init P WP). apply nth_error_Some. congruence. }
    rewrite (at0_get T) by auto. cbn [obind]. eauto.
  - exfalso. unfold minimal_bound in H. destruct (order_total P WP LO) as (rs & EO & RT). rewrite EO in H. assert (RS := order_shape P true rs EO). destruct (st_rows P WP) as (st & num & E & R). rewrite E in H.
    destruct (mix_queue_ok P AF st R) as (q0 & Eq & _). rewrite Eq in H. assert (X : forall f T M q, inv P rs T M q -> pgb_loop P st rs f T M q <> PUndef).
    { induction f as [|f IH]; intros T M q I; destruct q as [|n q]; cbn [pgb_loop]; try discriminate. destruct (step_defined P WP AF st R rs RS T M n q I) as ([[T' M'] a] & ES); [exact (fval_small P WP rs RT T M _ c I B)|].
      rewrite ES. apply IH. exact (proj1 (inv_step P WP AF st R rs RS _ _ _ _ _ _ _ I ES)). }
    exact (X _ _ _ _ (inv_init P WP AF st R rs q0 Eq) H).
Qed.

(** C140: without recursion and empty methods the values are the least numbers of cells *)
Theorem bound_attained : forall P fuel T t, wf_problem P -> Mix_spec.actions_first P -> listed_in_order P -> acyclic_hierarchy P ->
  (forall m, In m (p_methods P) -> m_subs m <> []) -> (forall t, (t < length (p_prim P))%nat -> primitive P t \/ has_method P t) ->
  minimal_bound P true fuel = PDone T -> (t < length (p_prim P))%nat ->
  exists k, nth t T 0 = Z.of_nat k /\ (exists p, carried P t k p) /\ forall k' p, carried P t k' p -> (k <= k')%nat.
Proof.
  intros P fuel T t WP AF LO AC NE ALL H Lt. destruct (result_inv P true fuel T WP AF (or_introl H)) as (rs & M & q & EO & I & Q). specialize (Q H). subst q. destruct (order_total P WP LO) as (rs' & EO' & RT). rewrite EO in EO'. injection EO' as <-.
  destruct (attained P WP rs RT T M I AC NE ALL t Lt) as (A & B). unfold at0 in *. exists (Z.to_nat (nth t T 0)). split; [lia|]. split; auto. intros k' p C.
  assert (X := proj1 (lower P WP rs RT T M [] I) t k' p C). unfold at0 in X. lia.
Qed.

(** ** The search *)
Section Search.
  Context {A : Type}.
  Variables (plans : nat -> A -> Prop) (solve : nat -> option (fdout A)) (steps : Z).
  Hypotheses (CP : complete_planner plans solve) (ST : 1 <= steps) (SB : steps + max_bound <= int_max).

  Lemma retry_ok c : 10 < c -> retry c = true.
  Proof. intros H. unfold retry. rewrite (proj2 (Z.ltb_lt _ _) H). now rewrite !Bool.orb_true_r. Qed.

  Lemma search_ok fuel : forall b, 1 <= b <= max_bound -> max_bound - b < Z.of_nat fuel ->
    (exists b' pl j, search solve true steps fuel b = SFound b' pl /\ plans (Z.to_nat b') pl /\ 0 <= j /\ b' = b + j * steps /\ b' <= max_bound /\ forall i pl', 0 <= i < j -> ~ plans (Z.to_nat (b + i * steps)) pl') \/
    (search solve true steps fuel b = SMax /\ forall i pl, 0 <= i -> b + i * steps <= max_bound -> ~ plans (Z.to_nat (b + i * steps)) pl).
  Proof.
    induction fuel as [|f IH]; intros b B F; [lia|]. cbn [search]. destruct (CP (Z.to_nat b)) as [(pl & E & PL)|(c & C & E & NP)]; [lia| |]; rewrite E.
    - left. exists b, pl, 0. repeat split; auto; try lia.
    - rewrite (retry_ok c C). unfold iadd. rewrite (proj2 (Z.leb_le _ _)) by lia. destruct (Z.ltb_spec max_bound (b + steps)) as [L|L].
      + right. split; auto. intros i pl Hi Li. assert (i = 0) by nia. subst i. rewrite Z.mul_0_l, Z.add_0_r. apply NP.
      + destruct (IH (b + steps)) as [(b' & pl & j & S1 & S2 & S3 & S4 & S5 & S6)|(S1 & S2)]; [lia|lia| |].
        * left. exists b', pl, (j + 1). split; auto. split; auto. split; [lia|]. split; [lia|]. split; auto. intros i pl' Hi. destruct (Z.eq_dec i 0) as [->|N]; [rewrite Z.mul_0_l, Z.add_0_r; apply NP|].
          specialize (S6 (i - 1) pl' ltac:(lia)). replace (b + steps + (i - 1) * steps) with (b + i * steps) in S6 by lia. exact S6.
        * right. split; auto. intros i pl Hi Li. destruct (Z.eq_dec i 0) as [->|N]; [rewrite Z.mul_0_l, Z.add_0_r; apply NP|].
          specialize (S2 (i - 1) pl ltac:(lia)). replace (b + steps + (i - 1) * steps) with (b + i * steps) in S2 by lia. apply S2. lia.
  Qed.

  Lemma search_pos fuel : forall b b' pl, 1 <= b -> search solve true steps fuel b = SFound b' pl -> (1 <= Z.to_nat b')%nat.
  Proof.
    induction fuel as [|f IH]; intros b b' pl L S1; cbn [search] in S1; try discriminate. destruct (solve (Z.to_nat b)) as [[p|c]|]; [injection S1 as <- _; lia| |discriminate]. destruct (retry c); [|discriminate].
    unfold iadd in S1. destruct (_ <=? _); [|discriminate]. destruct (Z.ltb_spec max_bound (b + steps)); [discriminate|]. eapply (IH (b + steps)); eauto. lia.
  Qed.

  (** If there are plans for all bounds from [B] on, the search ends with one. *)
  Lemma search_finds B b : (forall k, (B <= k)%nat -> exists pl, plans k pl) -> 1 <= b <= max_bound -> Z.of_nat B + steps <= max_bound ->
    exists fuel b' pl, search solve true steps fuel b = SFound b' pl /\ plans (Z.to_nat b') pl.
  Proof.
    intros H L M. exists (S (Z.to_nat (max_bound - b))). destruct (search_ok (S (Z.to_nat (max_bound - b))) b) as [(b' & pl & j & S1 & S2 & _)|(S1 & S2)]; auto; [lia|eauto|]. exfalso.
    assert (X : exists i, 0 <= i /\ Z.of_nat B <= b + i * steps <= max_bound).
    { destruct (Z.le_gt_cases (Z.of_nat B) b) as [Q|Q]; [exists 0; lia|]. exists ((Z.of_nat B - b) / steps + 1). assert (D := Z.div_mod (Z.of_nat B - b) steps ltac:(lia)). assert (R := Z.mod_pos_bound (Z.of_nat B - b) steps ltac:(lia)).
      assert (0 <= (Z.of_nat B - b) / steps) by (apply Z.div_pos; lia). split; [lia|]. nia. }
    destruct X as (i & Hi & Q1 & Q2). destruct (H (Z.to_nat (b + i * steps))) as (pl & PL); [lia|]. exact (S2 i pl Hi Q2 PL).
  Qed.
End Search.

(** C141: for totally ordered problems the search with steps of 1 from the first bound ends with a solution and the least possible bound if there is a solution
    that can be carried out with at most [max_bound] cells; otherwise it ends without a solution *)
Definition to_plans P V b pl : Prop := exists FT, translate P V b = Some FT /\ fd_plan FT pl.
Theorem to_search : forall P V fuel T b solve, to_base P V -> s0_found P V -> single_effects P V -> listed_in_order P -> leading_agree P V ->
  minimal_bound P true fuel = PDone T -> first_bound P T = Some b -> b <= max_bound -> complete_planner (to_plans P V) solve ->
  (exists k plan, Z.of_nat k <= max_bound /\ solution P plan /\ carried P (p_init P) k plan) /\
    (exists f b' pl, search solve true 1 f b = SFound b' pl /\ solution P (printed (map fst (effective pl))) /\ carried P (p_init P) (Z.to_nat b') (printed (map fst (effective pl))) /\
      forall k plan, solution P plan -> carried P (p_init P) k plan -> b' <= Z.of_nat k) \/
  (forall k plan, Z.of_nat k <= max_bound -> solution P plan -> ~ carried P (p_init P) k plan) /\ (exists f, search solve true 1 f b = SMax).
Proof.
  intros P V fuel T b solve TB S0 SE LO LA H FB BM CP.
  assert (B1 : 1 <= b). { unfold first_bound in FB. apply obind_some in FB as (i & E & FB). injection FB as <-. destruct (Z.ltb_spec i 1); lia. }
  assert (EX : forall k plan, (1 <= k)%nat -> solution P plan -> carried P (p_init P) k plan -> exists pl, to_plans P V k pl).
  { intros k plan L S C. destruct (to_defined P V TB S0 SE LO k L) as (FT & ET). destruct (proj2 (bound_exact P V TB S0 SE LO LA k FT plan L ET) (conj S C)) as (pl & FP & _). exists pl, FT. auto. }
  assert (LOW : forall k plan, carried P (p_init P) k plan -> b <= Z.of_nat k).
  { intros k plan C. assert (X := values_lower P fuel T _ _ _ (tb_wf _ _ TB) (af_mix P V TB) LO (or_introl H) C). unfold first_bound in FB. apply obind_some in FB as (i & E & FB). injection FB as <-. apply get_at0 in E. fold (at0 T (p_init P)) in X. rewrite E in X.
    assert (1 <= k)%nat by (inversion C; auto). destruct (Z.ltb_spec i 1); lia. }
  destruct (search_ok (to_plans P V) solve 1 CP ltac:(lia) ltac:(unfold max_bound, int_max; lia) (S (Z.to_nat (max_bound - b))) b) as [(b' & pl & j & S1 & S2 & S3 & S4 & S5 & S6)|(S1 & S2)]; [lia|lia| |].
  - left. destruct S2 as (FT & ET & FP). destruct (proj1 (bound_exact P V TB S0 SE LO LA (Z.to_nat b') FT (printed (map fst (effective pl))) ltac:(lia) ET) (ex_intro _ pl (conj FP eq_refl))) as (SOL & C). split; [exists (Z.to_nat b'), (printed (map fst (effective pl))); split; [lia|auto]|].
    exists (S (Z.to_nat (max_bound - b))), b', pl. split; auto. split; auto. split; auto. intros k plan SP CK. destruct (Z.le_gt_cases b' (Z.of_nat k)) as [|G]; auto. exfalso. assert (LK := LOW k plan CK). destruct (EX k plan ltac:(lia) SP CK) as (pl' & PL').
    apply (S6 (Z.of_nat k - b) pl'); [lia|]. replace (Z.to_nat (b + (Z.of_nat k - b) * 1)) with k by lia. exact PL'.
  - right. split; [|eauto]. intros k plan LK SP CK. assert (X := LOW k plan CK). destruct (EX k plan ltac:(lia) SP CK) as (pl' & PL'). apply (S2 (Z.of_nat k - b) pl'); [lia|lia|]. replace (Z.to_nat (b + (Z.of_nat k - b) * 1)) with k by lia. exact PL'.
Qed.

(** C142: for partially ordered problems (push encoding) the search ends with a solution if there is one and the maximal bound is not too small for it *)
Definition push_plans P V b pl : Prop := exists CT, push_translate P V b true zeros = Some CT /\ cd_plan CT pl.
Theorem push_search : forall P V plan, to_base P V -> s0_found P V -> single_effects P V -> listed_po P -> solution P plan ->
  exists B, forall solve b steps, complete_planner (push_plans P V) solve -> 1 <= b <= max_bound -> 1 <= steps -> steps + max_bound <= int_max -> Z.of_nat B + steps <= max_bound ->
    exists fuel b' pl, search solve true steps fuel b = SFound b' pl /\ solution P (push_printed (map fst pl)).
Proof.
  intros P V plan TB S0 SE LP SOL. destruct (push_complete P V TB S0 SE LP plan SOL) as (B & HB). exists (S B). intros solve b steps CP L ST SB BB.
  assert (FIND : forall k, (S B <= k)%nat -> exists pl, push_plans P V k pl).
  { intros k Lk. destruct (push_defined P V TB S0 SE LP k zeros) as (CT & ET); [lia|intros ? ? ?; reflexivity|]. destruct (HB k zeros CT) as (pl & CPl & _); auto; [lia|intros ? ? ?; reflexivity|]. exists pl, CT. auto. }
  destruct (search_finds (push_plans P V) solve steps CP ST SB (S B) b FIND L BB) as (fuel & b' & pl & S1 & (CT & ET & CPl)). exists fuel, b', pl. split; auto.
  assert (PG := search_pos solve steps ST fuel b b' pl (proj1 L) S1).
  exact (proj1 (push_sound P V TB S0 SE LP _ zeros CT pl PG (fun _ _ _ => eq_refl) ET CPl)).
Qed.

(** ** Examples *)
Module GEx.
  Local Open Scope nat_scope.
  (** 2 -> 3 0; 3 -> 4 4 1; 4 -> 0 *)
  Definition p : problem := mk 1 [true; true; false; false; false] [([], [0], []); ([], [], [])]
    [{| m_task := 2; m_subs := [3; 0]; m_ord := [(0, 1)] |}; {| m_task := 3; m_subs := [4; 4; 1]; m_ord := [(0, 1); (1, 2)] |}; {| m_task := 4; m_subs := [0]; m_ord := [] |}] [] [0].
  Lemma base : to_base p (singles 1). Proof. base_tac. Qed.
  Lemma s0 : s0_found p (singles 1). Proof. apply (no_s0 p 0). reflexivity. Qed.
  Lemma se : single_effects p (singles 1). Proof. apply no_dels_single. cbn. intuition. Qed.
  Lemma lo : listed_in_order p. Proof. apply in_order_check. reflexivity. Qed.
  Lemma la : leading_agree p (singles 1). Proof. apply singles_agree. Qed.
  Lemma value : minimal_bound p true 20 = PDone [1; 1; 4; 3; 1]%Z. Proof. reflexivity. Qed.
  Lemma bound : first_bound p [1; 1; 4; 3; 1]%Z = Some 4%Z. Proof. reflexivity. Qed.
  Lemma ac : acyclic_hierarchy p.
  Proof. exists (fun t => match t with 2 => 3 | 3 => 2 | 4 => 1 | _ => 0 end). intros m t [<-|[<-|[<-|[]]]] I; cbn in I; repeat (destruct I as [<-|I]; [cbn; lia|]); destruct I. Qed.
  Lemma ne : forall m, In m (p_methods p) -> m_subs m <> []. Proof. intros m [<-|[<-|[<-|[]]]]; discriminate. Qed.
  Lemma all : forall t, t < length (p_prim p) -> primitive p t \/ has_method p t.
  Proof.
    intros t L. cbn in L. destruct t as [|[|[|[|[|t]]]]]; try lia; try (left; reflexivity); right.
    - exists {| m_task := 2; m_subs := [3; 0]; m_ord := [(0, 1)] |}. cbn. auto.
    - exists {| m_task := 3; m_subs := [4; 4; 1]; m_ord := [(0, 1); (1, 2)] |}. cbn. auto.
    - exists {| m_task := 4; m_subs := [0]; m_ord := [] |}. cbn. auto.
  Qed.

  Example attained_ex : (exists plan, carried p 2 4 plan) /\ forall k plan, carried p 2 k plan -> 4 <= k.
  Proof. destruct (bound_attained p 20 _ 2 (tb_wf _ _ base) (tb_act _ _ base) lo ac ne all value) as (k & E & A & B); [cbn; lia|]. cbn in E. assert (k = 4) by lia. subst k. auto. Qed.
  Example lower_ex pgb FT pl : 1 <= pgb -> translate p (singles 1) pgb = Some FT -> fd_plan FT pl -> 4 <= pgb.
  Proof. intros L E F. assert (X := bound_lower p _ 20 _ _ pgb FT pl base s0 se lo la value bound L E F). lia. Qed.
  Example plan_ex : exists FT pl, translate p (singles 1) 4 = Some FT /\ fd_plan FT pl /\ printed (map fst (effective pl)) = [0; 0; 1; 0].
  Proof.
    destruct (translate p (singles 1) 4) as [T|] eqn:E; [|vm_compute in E; discriminate]. destruct (run_ix T (fd_init T) [8; 12; 16; 15; 5; 0]) as [[pl w]|] eqn:R; [|run_tac E R].
    exists T, pl. split; auto. split; [apply (run_ix_plan _ _ _ _ R)|]; run_tac E R; injection R as <- <-; reflexivity.
  Qed.
  Example exact_ex : solution p [0; 0; 1; 0] /\ carried p 2 4 [0; 0; 1; 0].
  Proof. destruct plan_ex as (FT & pl & E & F & PR). exact (proj1 (bound_exact p _ base s0 se lo la 4 FT _ ltac:(lia) E) (ex_intro _ pl (conj F PR))). Qed.
  (** 3 -> 3 1 | 0: the values of recursive tasks *)
  Definition q : problem := mk 1 [true; true; false] [([], [0], []); ([], [], [])] [{| m_task := 2; m_subs := [2; 1]; m_ord := [(0, 1)] |}; {| m_task := 2; m_subs := [0]; m_ord := [] |}] [] [0].
  Lemma baseq : to_base q (singles 1). Proof. base_tac. Qed.
  Lemma loq : listed_in_order q. Proof. apply in_order_check. reflexivity. Qed.
  Lemma smallq : small_refinements q int_max (fun _ => 1).
  Proof.
    split.
    - intros t (m & I & <-). exists [0]. assert (X : carried q 2 1 ([0] ++ [])). { apply (c_meth q {| m_task := 2; m_subs := [0]; m_ord := [] |} [0] []); auto; [cbn; auto|exists []; repeat split; [intros t [<-|[]]; reflexivity|discriminate]|constructor]. } destruct I as [<-|[<-|[]]]; exact X.
    - intros m t [<-|[<-|[]]] _; vm_compute; discriminate.
  Qed.
  Example defined_ex : exists fuel T b, minimal_bound q true fuel = PDone T /\ first_bound q T = Some b.
  Proof. exact (bound_defined q _ (tb_wf _ _ baseq) (tb_act _ _ baseq) loq smallq). Qed.

  (** A planner for 1 -> 0 that tries single operators *)
  Definition s : problem := mk 1 [true; false] [([], [0], [])] [{| m_task := 1; m_subs := [0]; m_ord := [] |}] [] [0].
  Lemma bases : to_base s (singles 1). Proof. base_tac. Qed.
  Lemma s0s : s0_found s (singles 1). Proof. apply (no_s0 s 0). reflexivity. Qed.
  Lemma ses : single_effects s (singles 1). Proof. apply no_dels_single. cbn. intuition. Qed.
  Lemma los : listed_in_order s. Proof. apply in_order_check. reflexivity. Qed.
  Definition solve (b : nat) : option (fdout (list (oname * fd_op))) :=
    match translate s (singles 1) b with
    | None => None
    | Some T =>
        match find (fun no => (appb (fd_init T) (snd no) && forallb (Sas_thm.holdsb (fd_result (fd_init T) (snd no))) (fd_goal T))%bool) (fd_ops T) with
        | Some no => Some (FdPlan [no])
        | None => Some (FdCode 3072)
        end
    end.
  Lemma holdsb_iff w x : Sas_thm.holdsb w x = true <-> holds w x.
  Proof. split; [apply holdsb_ok|]. unfold Sas_thm.holdsb, holds. intros ->. apply Nat.eqb_refl. Qed.
  Lemma appb_iff w o : appb w o = true <-> fd_applicable w o.
  Proof.
    unfold appb, fd_applicable. rewrite andb_true_iff, !forallb_forall. split; intros [A B]; (split; [intros x I; apply holdsb_iff, A; auto|]).
    - intros v c d I. apply holdsb_iff. now apply B in I.
    - intros [[v [c|]] d] I; cbn; auto. apply holdsb_iff. eauto.
  Qed.
  Lemma solve_ok : complete_planner (to_plans s (singles 1)) solve.
  Proof.
    intros b L. left. destruct (translate_good s (singles 1) bases s0s ses los b L) as (S & T & v0 & SP & ET & GD & R0 & EI & EG & _). unfold solve. rewrite ET.
    destruct (find _ (fd_ops T)) as [no|] eqn:F.
    - exists [no]. split; auto. exists T. split; auto. apply find_some in F as (I & F). apply andb_true_iff in F as [F1 F2]. exists (fd_result (fd_init T) (snd no)). split.
      + destruct no as [n o]. econstructor; [exact I|now apply appb_iff|]. constructor.
      + rewrite forallb_forall in F2. intros x Ix. apply holdsb_iff. auto.
    - exfalso. set (m := {| m_task := 1; m_subs := [0]; m_ord := [] |}). assert (Em : nth_error (p_methods s) 0 = Some m) by reflexivity. destruct (g_meth _ _ _ _ _ GD 0 m Em) as (prims & rest & Es & LD & GM).
      assert (LD0 : leading s m [0]) by (exists []; repeat split; [intros t [<-|[]]; reflexivity|discriminate]). destruct (leading_unique s m _ _ _ _ LD LD0 Es (eq_refl : m_subs m = [0] ++ [])) as [-> ->].
      destruct (GM 0) as (subs & o & Io); [lia|cbn; lia|]. assert (OL := g_like _ _ _ _ _ GD _ _ Io). cbn [op_like] in OL. destruct OL as (Lj & (m' & rest' & Em' & Es' & LD' & Lr & AL) & _). rewrite Em in Em'. injection Em' as <-. change (m_subs m) with ([0] ++ @nil nat) in Es'. apply app_inv_head in Es'. subst rest'.
      assert (EX : executable s (initial_state s) [0]). { cbn. split; auto. intros f (l & E & If). cbn in E. injection E as <-. destruct If. }
      destruct AL as [AL|[_ NE]]; [|exact (NE _ v0 (reached_init s) R0 EX)].
      destruct (step_meth s (singles 1) S b SP (singles_agree s 1) L 0 0 [0] m [] o (initial_state s) v0 [1] Lj Em eq_refl LD Lr AL (reached_init s) R0) as (_ & _ & _ & Y); [cbn; lia|]. destruct (Y [] eq_refl eq_refl EX) as (FA & v' & RV & ER). change [1] with [p_init s] in FA, ER. rewrite <- EI in FA, ER.
      assert (X := find_none _ _ F _ Io). cbn [snd] in X. rewrite (proj2 (appb_iff _ _) FA) in X. cbn [andb] in X. rewrite ER in X. assert (Y2 : forallb (Sas_thm.holdsb (v' ++ stv b [])) (fd_goal T) = true); [|cbn [app] in X; congruence].
      apply forallb_forall. intros x Ix. apply holdsb_iff. revert x Ix. apply (proj2 (goals s (singles 1) S v' _ [] b _ T SP RV eq_refl EG)). split; auto. intros g [<-|[]]. cbn. left. exists [0]. split; auto. now left.
  Qed.
  Example search_ex : exists f b pl, search solve true 1 f 1 = SFound b pl /\ solution s (printed (map fst (effective pl))).
  Proof.
    destruct (to_search s (singles 1) 20 [1; 1]%Z 1 solve bases s0s ses los (singles_agree s 1) eq_refl eq_refl ltac:(unfold max_bound; lia) solve_ok) as [(_ & f & b & pl & A & B & _)|(N & _)]; [eauto|]. exfalso.
    destruct (solve_ok 1 (le_n 1)) as [(pl & _ & FT & ET & FP)|(c & _ & E & _)].
    - destruct (proj1 (bound_exact s _ bases s0s ses los (singles_agree s 1) 1 FT _ (le_n 1) ET) (ex_intro _ pl (conj FP eq_refl))) as [A B]. apply (N 1 (printed (map fst (effective pl)))); auto. unfold max_bound. cbn. lia.
    - vm_compute in E. discriminate.
  Qed.
  (** The goal cannot be reached *)
  Definition n : problem := mk 2 [true; false] [([], [0], [])] [{| m_task := 1; m_subs := [0]; m_ord := [] |}] [] [1].
  Lemma basen : to_base n (singles 2). Proof. base_tac. Qed.
  Lemma unsolvable plan : ~ solution n plan.
  Proof.
    intros S. apply (proj1 (derives_solution n (tb_wf _ _ basen) (linear n (in_order_check n eq_refl)) plan)) in S as (_ & _ & G). specialize (G 1 (or_introl eq_refl)).
    assert (X : forall l s, ~ s 1 -> ~ after n s l 1). { clear. induction l as [|a l IH]; intros s N; cbn; auto. apply IH. intros [(x & E & I)|[A _]]; [|auto]. destruct a as [|[|a]]; cbn in E; try discriminate. injection E as <-. destruct I as [|[]]; discriminate. }
    apply (X plan (initial_state n)); auto.
  Qed.
  Example max_ex : exists f, search (fun _ => Some (FdCode 3072)) true 1 f 1 = @SMax (list (oname * fd_op)).
  Proof.
    assert (CP : complete_planner (to_plans n (singles 2)) (fun _ => Some (FdCode 3072))).
    { intros b L. right. exists 3072%Z. split; [lia|]. split; auto. intros pl (FT & ET & FP). destruct (proj1 (bound_exact n _ basen (no_s0 n 1 eq_refl) (no_dels_single n _ ltac:(cbn; intuition)) (in_order_check n eq_refl) (singles_agree n 2) b FT _ L ET) (ex_intro _ pl (conj FP eq_refl))) as [A _]. exact (unsolvable _ A). }
    destruct (to_search n (singles 2) 20 [1; 1]%Z 1 _ basen (no_s0 n 1 eq_refl) (no_dels_single n _ ltac:(cbn; intuition)) (in_order_check n eq_refl) (singles_agree n 2) eq_refl eq_refl ltac:(unfold max_bound; lia) CP) as [((k & plan & _ & S & _) & _)|(_ & X)]; auto. exfalso. exact (unsolvable _ S).
  Qed.
End GEx.

Module GEx2.
  Example push_ex : exists B, forall solve, complete_planner (push_plans PEx.p (singles 3)) solve -> Z.of_nat B + 1 <= max_bound ->
    exists fuel b' pl, search solve true 1 fuel 1 = SFound b' pl /\ solution PEx.p (push_printed (map fst pl)).
  Proof.
    destruct (push_search PEx.p (singles 3) _ PEx.base PEx.s0 PEx.se PEx.lp PEx.solution_ex) as (B & H). exists B. intros solve CP L. apply H; auto; unfold max_bound, int_max; try lia.
  Qed.
End GEx2.

(** ** What does not hold *)

(** C143: the computation ends regularly for every totally ordered problem *)
Definition always_defined : Prop := forall P, wf_problem P -> Mix_spec.actions_first P -> listed_in_order P -> exists fuel T, minimal_bound P true fuel = PDone T.
(** C144: the first bound suffices for some refinement of the initial task, if there is one *)
Definition always_attained : Prop := forall P fuel T b k p, wf_problem P -> Mix_spec.actions_first P -> listed_in_order P ->
  minimal_bound P true fuel = PDone T -> first_bound P T = Some b -> carried P (p_init P) k p -> exists p', carried P (p_init P) (Z.to_nat b) p'.
(** C145: the first bound is a lower bound for partially ordered problems, too *)
Definition po_bound_lower : Prop := forall P V fuel T b pgb CT pl, to_base P V -> s0_found P V -> single_effects P V -> listed_po P ->
  minimal_bound P false fuel = PDone T -> first_bound P T = Some b -> (1 <= pgb)%nat -> push_translate P V pgb true zeros = Some CT -> cd_plan CT pl -> b <= Z.of_nat pgb.
(** C146: the search ends for every step size, if the planner does *)
Definition search_always_ends : Prop := forall (solve : nat -> option (fdout (list (oname * fd_op)))) plans b steps, complete_planner plans solve -> 1 <= b <= max_bound -> 0 <= steps ->
  exists fuel, forall b', search solve true steps fuel b <> SMore b'.

Module GBad.
  Local Open Scope nat_scope.
  (** 1 -> 1 0 *)
  Definition m1 : method := {| m_task := 1; m_subs := [1; 0]; m_ord := [(0, 1)] |}.
  Definition p1 : problem := mk 1 [true; false] [([], [0], [])] [m1] [] [0].
  Lemma base1 : to_base p1 (singles 1). Proof. base_tac. Qed.
  (** 1 -> 1 | 2 2 2; 2 -> 0 *)
  Definition ma : method := {| m_task := 1; m_subs := [1]; m_ord := [] |}.
  Definition mb : method := {| m_task := 1; m_subs := [2; 2; 2]; m_ord := [(0, 1); (1, 2)] |}.
  Definition mc : method := {| m_task := 2; m_subs := [0]; m_ord := [] |}.
  Definition p2 : problem := mk 1 [true; false; false] [([], [0], [])] [ma; mb; mc] [] [0].
  Lemma base2 : to_base p2 (singles 1). Proof. base_tac. Qed.
  (** 1 -> 2, 3 (unordered); 2 -> 0 0 0; 3 -> 0 *)
  Definition p3 : problem := mk 1 [true; false; false; false] [([], [0], [])]
    [{| m_task := 1; m_subs := [2; 3]; m_ord := [] |}; {| m_task := 2; m_subs := [0; 0; 0]; m_ord := [(0, 1); (1, 2)] |}; {| m_task := 3; m_subs := [0]; m_ord := [] |}] [] [0].
  Lemma base3 : to_base p3 (singles 1). Proof. base_tac. Qed.
End GBad.

Theorem always_defined_refuted : ~ always_defined.
Proof.
  intros H. assert (B := GBad.base1). assert (LO : listed_in_order GBad.p1) by (apply in_order_check; reflexivity). destruct (H GBad.p1 (tb_wf _ _ B) (tb_act _ _ B) LO) as (fuel & T & E).
  destruct (result_inv _ _ _ _ (tb_wf _ _ B) (tb_act _ _ B) (or_introl E)) as (rs & M & q & EO & I & Q). specialize (Q E). subst q. vm_compute in EO. injection EO as <-.
  assert (A0 := i_act _ _ _ _ _ I 0%nat ltac:(cbn; lia)). destruct (i_t _ _ _ _ _ I 1%nat) as [[]|ET]; [exists GBad.m1; cbn; auto|].
  destruct (i_m _ _ _ _ _ I 0%nat GBad.m1 [0%nat; 1%nat] 0%nat eq_refl eq_refl) as [[]|[EM|(_ & Z0)]]; [|specialize (Z0 0%nat); cbn in Z0; rewrite A0 in Z0; specialize (Z0 (or_intror (or_introl eq_refl))); lia].
  assert (L := mval_in T 1 2 0 (places [0%nat; 1%nat] 0) 1 1 0 ltac:(cbn; auto)). unfold fval in EM. change (m_task GBad.m1) with 1%nat in EM. change (length [0%nat; 1%nat]) with 2%nat in EM.
  assert (BM := i_bM _ _ _ _ _ I 0%nat). cbn [minv fold_left] in ET. change (task_to_methods GBad.p1 1) with [0%nat] in ET. unfold minv in ET. cbn [fold_left] in ET. lia.
Qed.

Theorem always_attained_refuted : ~ always_attained.
Proof.
  intros H. assert (B := GBad.base2). assert (WF := tb_wf _ _ B).
  assert (LC : leading GBad.p2 GBad.mc [0%nat]) by (exists []; repeat split; [intros t [<-|[]]; reflexivity|discriminate]).
  assert (C2 : forall k, (1 <= k)%nat -> carried GBad.p2 2 k ([0%nat] ++ [])) by (intros k L; apply (c_meth GBad.p2 GBad.mc [0%nat] []); auto; [cbn; auto|constructor]).
  assert (LB : leading GBad.p2 GBad.mb []) by (exists [2; 2; 2]%nat; repeat split; [intros t []|intros t r [= <- <-]; discriminate]).
  assert (C1 : carried GBad.p2 1 3 ([] ++ ([0%nat] ++ []) ++ ([0%nat] ++ []) ++ ([0%nat] ++ []) ++ [])).
  { apply (c_meth GBad.p2 GBad.mb [] [2; 2; 2]%nat); auto; [cbn; auto|]. repeat (apply s_cons; [cbn; lia|apply C2; cbn; lia|]). constructor. }
  destruct (H GBad.p2 20%nat [1; 0; 1] 1 3%nat _ WF (tb_act _ _ B) ltac:(apply in_order_check; reflexivity) ltac:(vm_compute; reflexivity) eq_refl C1) as (p' & C').
  change (Z.to_nat 1) with 1%nat in C'. change (p_init GBad.p2) with 1%nat in C'.
  assert (X : (forall t k p, carried GBad.p2 t k p -> t = 1%nat -> k = 1%nat -> False) /\ (forall ts k p, stack GBad.p2 ts k p -> k = 1%nat -> ts <> [1%nat] /\ (length ts <= 1)%nat)).
  { apply carried_stack_min.
    - intros t k Pt _ -> _. unfold primitive in Pt. discriminate.
    - intros m prims rest k p I Es LD L S IH Et Ek. specialize (IH Ek) as [N1 N2]. destruct I as [<-|[<-|[<-|[]]]]; cbn in Et; try discriminate; cbn [m_subs GBad.ma GBad.mb] in Es.
      + destruct prims as [|x prims]; cbn in Es; [congruence|]. injection Es as <- Es. destruct LD as (r & _ & HP & _). specialize (HP 1%nat (or_introl eq_refl)). discriminate.
      + destruct prims as [|x prims]; cbn in Es; [subst rest; cbn in N2; lia|]. injection Es as <- Es. destruct LD as (r & _ & HP & _). specialize (HP 2%nat (or_introl eq_refl)). discriminate.
    - intros k _. split; [discriminate|cbn; lia].
    - intros t ts k p q L C IHC S IHS ->. assert (ts = []) by (destruct ts; [auto|cbn in L; lia]). subst ts. split; [|cbn; lia]. intros [= ->]. apply IHC; auto. }
  exact (proj1 X _ _ _ C' eq_refl eq_refl).
Qed.

Theorem po_bound_lower_refuted : ~ po_bound_lower.
Proof.
  intros H. assert (B := GBad.base3). destruct (push_translate GBad.p3 (singles 1) 3 true zeros) as [T|] eqn:E; [|vm_compute in E; discriminate].
  assert (X : exists pl, cd_plan T pl).
  { destruct (crun_ix T (cd_init T) [3; 6; 0; 14; 13; 5; 2; 1; 0]%nat) as [[pl w]|] eqn:R; [exists pl; apply (crun_ix_plan _ _ _ _ R); run_tac E R; injection R as <- <-; reflexivity|run_tac E R]. }
  destruct X as (pl & FP).
  assert (SEH : forall l, In l (p_del GBad.p3) -> l = []) by (cbn; intros l [<-|[]]; reflexivity).
  assert (Y := H GBad.p3 (singles 1) 30%nat [1; 4; 3; 1] 4 3%nat T pl B (no_s0 GBad.p3 0 eq_refl) (no_dels_single GBad.p3 _ SEH) ltac:(apply po_check; reflexivity) ltac:(vm_compute; reflexivity) eq_refl ltac:(lia) E FP). lia.
Qed.

Theorem search_always_ends_refuted : ~ search_always_ends.
Proof.
  intros H. destruct (H (fun _ => Some (FdCode 3072)) (fun _ _ => False) 1 0) as (fuel & E); [|unfold max_bound; lia|lia|].
  - intros b L. right. exists 3072. split; [lia|]. split; auto.
  - apply (E 1). clear E. induction fuel as [|f IH]; [reflexivity|]. exact IH.
Qed.

Print Assumptions bound_exact.
Print Assumptions values_lower.
Print Assumptions bound_lower.
Print Assumptions bound_ends.
Print Assumptions bound_defined.
Print Assumptions bound_attained.
Print Assumptions to_search.
Print Assumptions push_search.
Print Assumptions always_defined_refuted.
Print Assumptions always_attained_refuted.
Print Assumptions po_bound_lower_refuted.
Print Assumptions search_always_ends_refuted.
