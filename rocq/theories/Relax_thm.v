(** Theorems about the delete-relaxation heuristics: C35 (hsAddFF, hsFilter), C37 (h^max), C38 (LM-cut), C56 (stack of the
    FF extraction). *)
From Verif Require Import Base Heap_model Heap_proof Relax_model Relax_spec Dij Aff_proof FF_proof HMax_proof LmCut_proof.

(** The memory allocator returns blocks of the requested size, with any contents. *)
Definition alloc_ok (al : nat -> list Z) : Prop := forall n, length (al n) = n.

(** State and goal are sets of facts. *)
Definition sets_ok (m : strips) (s g : list nat) : Prop :=
  NoDup s /\ (forall f, In f s -> f < st_nf m) /\ NoDup g /\ (forall f, In f g -> f < st_nf m).

Notation m_reach m s := (rreach (st_nops m) (m_pre m) (m_add m) s).
Notation m_rplan m s := (rplan (st_nops m) (m_pre m) (m_add m) s).
Notation m_cheapest m s agg := (cheapest (st_nops m) (m_pre m) (m_add m) (m_cost m) s agg).

(** C35: hsAddFF in its additive variant returns the sum of the costs of cheapest derivations, and UNREACHABLE exactly if
    some goal is unreachable without deletes. There is no other outcome, in particular no access outside an array. *)
Theorem add_exact al m q0 rb0 s g : alloc_ok al -> strips_wf m -> no_precless m -> sets_ok m s g -> HInv q0 ->
  length rb0 = st_nf m ->
  (exists c, (forall f, In f g -> m_cheapest m s list_sum f (c f)) /\
      aff_value al m sasAdd q0 rb0 s g = Some (Some (list_sum (map c g)))) \/
  ((exists f, In f g /\ ~ m_reach m s f) /\ aff_value al m sasAdd q0 rb0 s g = Some None).
Proof.
  intros AL W NPL (NDs & Ss & NDg & Gs) HQ LR. destruct g as [|g0 gt] eqn:EG.
  { left. exists (fun _ => 0). split; [easy|]. reflexivity. }
  rewrite <- EG in *. assert (NE : g <> []) by (rewrite EG; easy).
  destruct (aff_run al m sasAdd s g AL W NPL Ss NDs Gs NDg q0 rb0 HQ LR NE) as [(E & f & If & N)|(pr & x & hv & B & last & E & EH & D & G & _ & _)].
  - right. split; auto. exists f. split; auto. intros R. apply (rreach_deriv _ _ _ (m_cost m) _ list_sum) in R as (v & V). apply (N v V).
  - left. exists (val hv). split.
    + intros f If. apply (d_pr_cheapest _ _ _ _ _ _ _ D f (G f If)).
    + rewrite E. unfold aff_result. rewrite EH.
      assert (OM : forall l, (forall f, In f l -> In f pr) -> omap (fun f => h <- get hv f ;; h) l = Some (map (val hv) l)).
      { induction l as [|f l IH]; intros H; auto. cbn [omap map].
        destruct (d_pr_val _ _ _ _ _ _ _ D f) as (V & _); [apply H; now left|].
        rewrite (hvf_get hv f) by (eapply hvf_lt; eauto). rewrite V. cbn [obind]. rewrite IH; [reflexivity|]. intros y Hy. apply H. now right. }
      rewrite (OM g G). reflexivity.
Qed.

(** C35: both variants report UNREACHABLE exactly if some goal is unreachable in the delete relaxation. *)
Theorem unreachable_exact al m k q0 rb0 s g : alloc_ok al -> strips_wf m -> no_precless m -> sets_ok m s g -> HInv q0 ->
  length rb0 = st_nf m ->
  (aff_value al m k q0 rb0 s g = Some None <-> exists f, In f g /\ ~ m_reach m s f).
Proof.
  intros AL W NPL (NDs & Ss & NDg & Gs) HQ LR. destruct g as [|g0 gt] eqn:EG.
  { split; [discriminate|intros (f & [] & _)]. }
  rewrite <- EG in *. assert (NE : g <> []) by (rewrite EG; easy).
  destruct (aff_run al m k s g AL W NPL Ss NDs Gs NDg q0 rb0 HQ LR NE) as [(E & f & If & N)|(pr & x & hv & B & last & E & EH & D & G & _ & _)].
  - split; auto. intros _. exists f. split; auto. intros R. apply (rreach_deriv _ _ _ (m_cost m) _ (agg (kop k))) in R as (v & V). apply (N v V).
  - split.
    + rewrite E. unfold aff_result. destruct k; intros H; inv_opt; discriminate.
    + intros (f & If & N). exfalso. apply N. apply (rreach_deriv _ _ _ (m_cost m) _ (agg (kop k))).
      exists (val hv f). apply (d_pr_cheapest _ _ _ _ _ _ _ D f (G f If)).
Qed.

(** C35: a value of h^FF is the cost of a relaxed plan, made of the marked operators, each used once. *)
Theorem ff_relaxed_plan al m q0 rb0 s g v : alloc_ok al -> strips_wf m -> no_precless m -> sets_ok m s g -> HInv q0 ->
  length rb0 = st_nf m -> aff_value al m sasFF q0 rb0 s g = Some (Some v) ->
  exists ops, NoDup ops /\ m_rplan m s ops g /\ pcost (m_cost m) ops = v.
Proof.
  intros AL W NPL (NDs & Ss & NDg & Gs) HQ LR H. destruct g as [|g0 gt] eqn:EG.
  { injection H as <-. exists []. split; [constructor|]. split; [|reflexivity]. exists (fun f => In f s). cbn. split; [tauto|easy]. }
  rewrite <- EG in *. assert (NE : g <> []) by (rewrite EG; easy).
  destruct (aff_run al m sasFF s g AL W NPL Ss NDs Gs NDg q0 rb0 HQ LR NE) as [(E & _)|(pr & x & hv & B & last & E & EH & D & G & S & L)];
    [rewrite E in H; discriminate|].
  rewrite E in H. unfold aff_result in H. apply obind_some in H as (ops & EF & H). apply obind_some in H as (w & EV & H). injection H as ->.
  destruct (ff_extract_sound m s (a_rb x) pr L S g ops G EF) as (N1 & N2 & pl & P & RP).
  rewrite (ff_value_ok m W (a_rb x) L ops N2) in EV. injection EV as <-.
  exists pl. split; [eapply Permutation_NoDup; [symmetry; exact P|exact N1]|]. split; auto.
  unfold pcost. clear - P. induction P; cbn; auto; unfold list_sum in *; lia.
Qed.

(** C56: with at most two preconditions per operator the FF extraction stays within its stack. *)
Theorem ff_total_binary al m q0 rb0 s g : alloc_ok al -> strips_wf m -> no_precless m -> sets_ok m s g -> HInv q0 ->
  length rb0 = st_nf m -> (forall op, op < st_nops m -> length (m_pre m op) <= 2) ->
  aff_value al m sasFF q0 rb0 s g <> None.
Proof.
  intros AL W NPL (NDs & Ss & NDg & Gs) HQ LR K2. destruct g as [|g0 gt] eqn:EG; [discriminate|].
  rewrite <- EG in *. assert (NE : g <> []) by (rewrite EG; easy).
  destruct (aff_run al m sasFF s g AL W NPL Ss NDs Gs NDg q0 rb0 HQ LR NE) as [(E & _)|(pr & x & hv & B & last & E & EH & D & G & S & L)];
    [rewrite E; discriminate|].
  rewrite E. unfold aff_result.
  destruct (ff_extract_total m s NPL (a_rb x) pr L S g K2 G) as (ops & EF). rewrite EF. cbn [obind].
  destruct (ff_extract_sound m s (a_rb x) pr L S g ops G EF) as (_ & N2 & _). rewrite (ff_value_ok m W (a_rb x) L ops N2). discriminate.
Qed.

(** C35: the filter is zero if all goals are reachable in the delete relaxation and UNREACHABLE otherwise. *)
Theorem filter_exact al m q0 rb0 s g v : alloc_ok al -> strips_wf m -> no_precless m -> sets_ok m s g -> HInv q0 ->
  length rb0 = st_nf m -> filter_value al m sasFF q0 rb0 s g = Some v ->
  (v = Some 0 /\ exists ops, m_rplan m s ops g) \/ (v = None /\ exists f, In f g /\ ~ m_reach m s f).
Proof.
  intros AL W NPL SO HQ LR H. unfold filter_value in H. apply obind_some in H as (h & E & H). injection H as <-.
  destruct h as [w|].
  - left. split; auto. destruct (ff_relaxed_plan al m q0 rb0 s g w AL W NPL SO HQ LR E) as (ops & _ & R & _). eauto.
  - right. split; auto. eapply unreachable_exact; eauto.
Qed.

(** C37: getHMax is the maximum over the goals of the costs of cheapest derivations under the maximum. *)
Theorem hmax_exact al m cs q0 s g : alloc_ok al -> strips_wf m -> no_precless m -> sets_ok m s g -> HInv q0 ->
  length cs = st_nops m ->
  (exists c, (forall f, In f g -> cheapest (st_nops m) (m_pre m) (m_add m) (fun op => nth op cs 0) s list_max f (c f)) /\
      hmax_value al m cs q0 s g = Some (Some (list_max (map c g)))) \/
  ((exists f, In f g /\ ~ m_reach m s f) /\ hmax_value al m cs q0 s g = Some None).
Proof.
  intros AL W NPL (NDs & Ss & NDg & Gs) HQ LC. destruct g as [|g0 gt] eqn:EG.
  { left. exists (fun _ => 0). split; [easy|reflexivity]. }
  rewrite <- EG in *. assert (NE : g <> []) by (rewrite EG; easy).
  unfold hmax_value. destruct g as [|g1 gt1] eqn:EG1; [congruence|]. rewrite <- EG1 in *.
  destruct (hm_run_ok al m cs s AL W NPL LC Ss NDs q0 HQ) as (pr & x & E & HD). rewrite E. cbn [obind].
  destruct (hm_goal_ok (m_hv x) g) with (acc := @None (nat * nat)) as [(f & If & Nf & EH)|(AG & [(Q & _)|(r & mf & EH & SG & MG & _)])].
  - intros f Hf. rewrite (h_lh _ _ _ _ _ HD). auto.
  - right. rewrite EH. split; [|reflexivity]. exists f. split; auto. intros R. apply (rreach_deriv _ _ _ (ccost cs) _ (agg Nat.max)) in R as (v & V).
    apply (h_reach _ _ _ _ _ HD) in V. apply (h_pr _ _ _ _ _ HD) in V as (w & V). congruence.
  - congruence.
  - left. exists (val (m_hv x)). rewrite EH. cbn [obind]. destruct SG as [?|(Im & Vm)]; [discriminate|]. split.
    + intros f If. apply (h_cheap _ _ _ _ _ HD). apply (h_pr _ _ _ _ _ HD). auto.
    + do 2 f_equal. apply Nat.le_antisymm.
      * assert (I : In (val (m_hv x) mf) (map (val (m_hv x)) g)) by now apply in_map. unfold val at 1 in I. rewrite Vm in I.
        pose proof (proj1 (list_max_le (map (val (m_hv x)) g) (list_max (map (val (m_hv x)) g))) (le_n _)) as F.
        rewrite Forall_forall in F. now apply F.
      * apply list_max_le. rewrite Forall_forall. intros v Iv. apply in_map_iff in Iv as (f & <- & If). destruct (AG f If) as (w & V).
        unfold val. rewrite V. eauto.
Qed.

(** C38: LM-cut terminates without an access outside an array; it reports UNREACHABLE exactly if a goal is unreachable;
    otherwise its value is at most the cost of any relaxed plan, at least h^max, and every cut is a set of operators one
    of which is in every relaxed plan. *)
Theorem lmcut_admissible al m q0 s g : alloc_ok al -> strips_wf m -> no_precless m -> sets_ok m s g -> HInv q0 ->
  ((exists f, In f g /\ ~ m_reach m s f) /\ lmcut_value al m q0 s g = Some None) \/
  ((forall f, In f g -> m_reach m s f) /\ exists h cuts, lmcut_value al m q0 s g = Some (Some (h, cuts)) /\
     (forall ops, m_rplan m s ops g -> h <= pcost (m_cost m) ops) /\
     (forall v, hmax_value al m (st_cost m) q0 s g = Some (Some v) -> v <= h) /\
     (forall c, In c cuts -> disj_landmark (st_nops m) (m_pre m) (m_add m) s g c)).
Proof.
  intros AL W NPL (NDs & Ss & NDg & Gs) HQ. destruct g as [|g0 gt] eqn:EG.
  { right. split; [easy|]. exists 0, []. split; [reflexivity|]. split; [intros; lia|]. split; [|easy]. intros v E. injection E as <-. lia. }
  rewrite <- EG in *. assert (NE : g <> []) by (rewrite EG; easy).
  unfold lmcut_value, hmax_value. destruct g as [|g1 gt1] eqn:EG1; [congruence|]. rewrite <- EG1 in *.
  pose proof (sw_cost m W) as LC.
  destruct (hm_run_ok al m (st_cost m) s AL W NPL LC Ss NDs q0 HQ) as (pr & x & E & HD). rewrite E. cbn [obind].
  destruct (hm_goal_ok (m_hv x) g) with (acc := @None (nat * nat)) as [(f & If & Nf & EH)|(AG & [(Q & _)|(r & mf & EH & SG & MG & _)])].
  - intros f Hf. rewrite (h_lh _ _ _ _ _ HD). auto.
  - left. rewrite EH. split; [|reflexivity]. exists f. split; auto. intros R. apply (rreach_deriv _ _ _ (ccost (st_cost m)) _ (agg Nat.max)) in R as (v & V).
    apply (h_reach _ _ _ _ _ HD) in V. apply (h_pr _ _ _ _ _ HD) in V as (w & V). congruence.
  - congruence.
  - right. assert (RG : forall f, In f g -> m_reach m s f).
    { intros f If. apply (rreach_deriv _ _ _ (ccost (st_cost m)) _ (agg Nat.max)). exists (val (m_hv x) f). apply (h_cheap _ _ _ _ _ HD).
      apply (h_pr _ _ _ _ _ HD). auto. }
    split; auto. rewrite EH. cbn [obind]. destruct SG as [?|(Im & Vm)]; [discriminate|].
    destruct (lmc_loop_ok al m s AL W NPL Ss NDs g Gs RG NE (S (st_nops m)) (st_cost m) pr x r mf 0 [] LC HD Im Vm MG) as (h & cuts & EL & A1 & A2 & A3).
    + unfold npos. assert (Q : length (filter (fun op => 0 <? ccost (st_cost m) op) (seq 0 (st_nops m))) <= length (seq 0 (st_nops m))).
      { generalize (seq 0 (st_nops m)) as l. induction l as [|a l IH]; cbn [filter length]; [lia|]. destruct (0 <? _); cbn [length]; lia. }
      rewrite seq_length in Q. lia.
    + intros ops _. unfold pcost. change (ccost (st_cost m)) with (m_cost m). lia.
    + easy.
    + exists h, cuts. rewrite EL. split; [reflexivity|]. split; auto. split; auto. intros v Ev. injection Ev as <-. exact A2.
Qed.

(** ** Examples and refutations *)
Module Ex.
Definition mk (nf : nat) (pre add : list (list nat)) (cost : list nat) : strips :=
  {| st_nf := nf; st_pre := pre; st_add := add; st_cost := cost; st_p2a := inverse_mapping nf pre; st_precless := precless pre |}.

(** Fact 3 needs 1 and 2; fact 4 is unreachable. *)
Definition m : strips := mk 5 [[0]; [0]; [1; 2]; [4]] [[1]; [2]; [3]; [3]] [2; 3; 1; 0].
Definition al (n : nat) : list Z := repeat 7%Z n.
Definition q0 : heap := {| hk := [int_min; 5; 5; 5]%Z; hv := [0; 0; 0; 0]%Z; hnext := 1 |}.

Lemma al_ok : alloc_ok al.
Proof. intros n. apply repeat_length. Qed.

Lemma q0_ok : HInv q0.
Proof.
  constructor; cbn; try lia; try reflexivity.
  - intros i Hi. assert (i = 0) by lia. subst. cbn. lia.
  - intros i Hi. cbn in Hi. lia.
Qed.

Ltac ops4 H := repeat (destruct H as [H|H]; [subst|]); try easy.

Lemma mk_wf nf pre add cost : length add = length pre -> length cost = length pre ->
  forallb (forallb (fun p => Nat.ltb p nf)) pre = true -> forallb (forallb (fun p => Nat.ltb p nf)) add = true ->
  Forall (fun l => NoDup l) pre -> strips_wf (mk nf pre add cost).
Proof.
  intros L1 L2 P A N. rewrite forallb_forall in P, A. rewrite Forall_forall in N. unfold mk, st_nops, m_pre, m_add; constructor; cbn; auto.
  - intros op p Ho Hp. specialize (P _ (nth_In pre [] Ho)). rewrite forallb_forall in P. apply Nat.ltb_lt. now apply P.
  - intros op Ho. apply N. now apply nth_In.
  - intros op f Ho Hf. unfold st_nops in Ho. cbn in Ho. rewrite <- L1 in Ho. specialize (A _ (nth_In add [] Ho)). rewrite forallb_forall in A. apply Nat.ltb_lt. now apply A.
Qed.

Ltac nodups := repeat constructor; cbn; try (intros H; repeat (destruct H as [H|H]); try easy; discriminate).

Lemma m_wf : strips_wf m.
Proof. apply mk_wf; try reflexivity. nodups. Qed.
Lemma m_np : no_precless m.
Proof. intros op H. unfold st_nops in H. cbn in H. do 4 (destruct op as [|op]; [discriminate|]). lia. Qed.
Lemma sets : sets_ok m [0] [3; 2].
Proof.
  split; [nodups|]. split; [intros f [<-|[]]; cbn; lia|]. split; [nodups|]. intros f [<-|[<-|[]]]; cbn; lia.
Qed.

Example add_value_ex : aff_value al m sasAdd q0 (repeat None 5) [0] [3; 2] = Some (Some 9).
Proof. vm_compute. reflexivity. Qed.
Example ff_value_ex : aff_value al m sasFF q0 (repeat None 5) [0] [3; 2] = Some (Some 6).
Proof. vm_compute. reflexivity. Qed.
Example ff_unreachable_ex : aff_value al m sasFF q0 (repeat None 5) [0] [3; 4] = Some None.
Proof. vm_compute. reflexivity. Qed.
Example filter_ex : filter_value al m sasFF q0 (repeat None 5) [0] [3; 2] = Some (Some 0).
Proof. vm_compute. reflexivity. Qed.
Example hmax_ex : hmax_value al m [2; 3; 1; 0] q0 [0] [3; 2] = Some (Some 4).
Proof. vm_compute. reflexivity. Qed.
Example lmcut_ex : lmcut_value al m q0 [0] [3; 2] = Some (Some (6, [[0]; [1]; [2]])).
Proof. vm_compute. reflexivity. Qed.

(** All hypotheses of the theorems hold for this task. *)
Example lmcut_applies := lmcut_admissible al m q0 [0] [3; 2] al_ok m_wf m_np sets q0_ok.
Example add_applies := add_exact al m q0 (repeat None 5) [0] [3; 2] al_ok m_wf m_np sets q0_ok eq_refl.
Example hmax_applies := hmax_exact al m [2; 3; 1; 0] q0 [0] [3; 2] al_ok m_wf m_np sets q0_ok eq_refl.
Example ff_applies := ff_relaxed_plan al m q0 (repeat None 5) [0] [3; 2] 6 al_ok m_wf m_np sets q0_ok eq_refl ff_value_ex.
Example filter_applies := filter_exact al m q0 (repeat None 5) [0] [3; 2] (Some 0) al_ok m_wf m_np sets q0_ok eq_refl filter_ex.
Example unreachable_applies := unreachable_exact al m sasFF q0 (repeat None 5) [0] [3; 2] al_ok m_wf m_np sets q0_ok eq_refl.
Lemma binary : forall op, op < st_nops m -> length (m_pre m op) <= 2.
Proof. intros op H. unfold st_nops in H. cbn in H. do 4 (destruct op as [|op]; [cbn; lia|]). lia. Qed.
Example ff_total_applies := ff_total_binary al m q0 (repeat None 5) [0] [3; 2] al_ok m_wf m_np sets q0_ok eq_refl binary.

(** Operator 0 has no precondition and adds fact 0, which holds already; operator 1 needs facts 0 and 1, and nothing adds
    fact 1. Fact 0 is processed twice, and operator 1 counts as applicable. *)
Definition mp : strips := mk 3 [[]; [0; 1]] [[0]; [2]] [0; 1].

(** The chain that overflows the stack of the FF extraction: fact k needs all facts below k. *)
Definition mo : strips := mk 5 [[0]; [0; 1]; [0; 1; 2]; [0; 1; 2; 3]] [[1]; [2]; [3]; [4]] [1; 1; 1; 1].

(** An operator without precondition in the LM-cut computation. *)
Definition ml : strips := mk 1 [[]] [[0]] [1].

(** LM-cut with a cut of two operators: two ways to reach fact 1. *)
Definition m2 : strips := mk 3 [[0]; [0]; [1]] [[1]; [1]; [2]] [4; 3; 2].
Example lmcut_two : lmcut_value al m2 q0 [0] [2] = Some (Some (5, [[0; 1]; [2]])).
Proof. vm_compute. reflexivity. Qed.
End Ex.

(** C35 needs "no operator without precondition": otherwise an unreachable goal can be reported as reachable. *)
Theorem unreachable_exact_precless_refuted : exists al m q0 rb0 s g,
  alloc_ok al /\ strips_wf m /\ sets_ok m s g /\ HInv q0 /\ length rb0 = st_nf m /\
  (exists f, In f g /\ ~ m_reach m s f) /\ aff_value al m sasFF q0 rb0 s g = Some (Some 1).
Proof.
  exists Ex.al, Ex.mp, Ex.q0, (repeat None 3), [0], [2]. split; [apply Ex.al_ok|]. split.
  { apply Ex.mk_wf; try reflexivity. Ex.nodups. }
  split. { split; [Ex.nodups|]. split; [intros f [<-|[]]; cbn; lia|]. split; [Ex.nodups|]. intros f [<-|[]]; cbn; lia. }
  split; [apply Ex.q0_ok|]. split; [reflexivity|]. split; [|vm_compute; reflexivity].
  exists 2. split; [now left|].
  assert (H : forall f, m_reach Ex.mp [0] f -> f = 0).
  { induction 1 as [f [<-|[]]|op f Ho Hp IH Hf]; auto. unfold st_nops in Ho. cbn in Ho.
    destruct op as [|[|op]]; cbn in Hf; [| |lia].
    - now destruct Hf as [<-|[]].
    - specialize (IH 1 ltac:(cbn; auto)). discriminate. }
  intros R. apply H in R. discriminate.
Qed.

(** C56: the FF extraction can write beyond its stack, which has one cell per fact. *)
Theorem ff_stack_refuted : exists al m q0 rb0 s g,
  alloc_ok al /\ strips_wf m /\ no_precless m /\ sets_ok m s g /\ HInv q0 /\ length rb0 = st_nf m /\
  aff_value al m sasAdd q0 rb0 s g <> None /\ aff_value al m sasFF q0 rb0 s g = None.
Proof.
  exists Ex.al, Ex.mo, Ex.q0, (repeat None 5), [0], [4]. split; [apply Ex.al_ok|]. split.
  { apply Ex.mk_wf; try reflexivity. Ex.nodups. }
  split. { intros op H. unfold st_nops in H. cbn in H. do 4 (destruct op as [|op]; [discriminate|]). lia. }
  split. { split; [Ex.nodups|]. split; [intros f [<-|[]]; cbn; lia|]. split; [Ex.nodups|]. intros f [<-|[]]; cbn; lia. }
  split; [apply Ex.q0_ok|]. split; [reflexivity|]. split; [vm_compute; discriminate|vm_compute; reflexivity].
Qed.

(** C38 needs "no operator without precondition" as well: its maxPrec is read although it was never set. *)
Theorem lmcut_precless_refuted : exists al m q0 s g,
  alloc_ok al /\ strips_wf m /\ sets_ok m s g /\ HInv q0 /\ lmcut_value al m q0 s g = None.
Proof.
  exists Ex.al, Ex.ml, Ex.q0, [], [0]. split; [apply Ex.al_ok|]. split.
  { apply Ex.mk_wf; try reflexivity. Ex.nodups. }
  split. { split; [Ex.nodups|]. split; [easy|]. split; [Ex.nodups|]. intros f [<-|[]]; cbn; lia. }
  split; [apply Ex.q0_ok|]. vm_compute. reflexivity.
Qed.

(** A real plan is a relaxed plan. *)
Lemma splan_rplan n pre add s del ops g : splan n pre add s del ops g -> rplan n pre add s ops g.
Proof.
  intros (out & E & G).
  assert (H : forall ops (st st' : nat -> Prop) out, (forall f, st f -> st' f) -> sexec n pre add del st ops out ->
                exists out', rexec n pre add st' ops out' /\ forall f, out f -> out' f).
  { clear. induction ops as [|op t IH]; intros st st' out I; cbn.
    - intros E. exists st'. split; [tauto|]. intros f F. apply I, E, F.
    - intros (A & B & E). destruct (IH (fun f => (st f /\ ~ In f (del op)) \/ In f (add op)) (fun f => st' f \/ In f (add op)) out) as (out' & R & S); auto.
      + intros f [(X & _)|X]; auto.
      + exists out'. split; auto. }
  destruct (H ops (fun f => In f s) (fun f => In f s) out) as (out' & R & S); auto. exists out'. split; auto.
Qed.

(** What a relaxed plan achieves is relaxed reachable. *)
Lemma rplan_reach n pre add s ops g : rplan n pre add s ops g -> forall f, In f g -> rreach n pre add s f.
Proof.
  intros (out & E & G) f F. apply G in F. clear G.
  assert (H : forall ops (st out : nat -> Prop), (forall f, st f -> rreach n pre add s f) -> rexec n pre add st ops out ->
                forall f, out f -> rreach n pre add s f).
  { clear. induction ops as [|op t IH]; intros st out I; cbn.
    - intros E f F. apply I, E, F.
    - intros (A & B & E). apply (IH (fun f => st f \/ In f (add op)) out); auto.
      intros f [F|F]; auto. eapply rr_op; eauto. }
  apply (H ops (fun f => In f s) out); auto. apply rr_init.
Qed.

(** C38: LM-cut never exceeds the cost of a real plan, whatever the operators delete; and if the value is
    UNREACHABLE there is no real plan. *)
Theorem lmcut_admissible_real al m q0 s g del ops : alloc_ok al -> strips_wf m -> no_precless m -> sets_ok m s g -> HInv q0 ->
  splan (st_nops m) (m_pre m) (m_add m) s del ops g ->
  exists h cuts, lmcut_value al m q0 s g = Some (Some (h, cuts)) /\ h <= pcost (m_cost m) ops.
Proof.
  intros AL W NPL SO HQ SP. apply splan_rplan in SP.
  destruct (lmcut_admissible al m q0 s g AL W NPL SO HQ) as [((f & If & N) & _)|(_ & h & cuts & E & A & _)].
  - elim N. apply (rplan_reach _ _ _ _ ops g SP f If).
  - exists h, cuts. auto.
Qed.

Print Assumptions lmcut_admissible_real.
Print Assumptions add_exact.
Print Assumptions unreachable_exact.
Print Assumptions ff_relaxed_plan.
Print Assumptions ff_total_binary.
Print Assumptions filter_exact.
Print Assumptions hmax_exact.
Print Assumptions lmcut_admissible.
Print Assumptions unreachable_exact_precless_refuted.
Print Assumptions ff_stack_refuted.
Print Assumptions lmcut_precless_refuted.
