(** Properties of the translation of totally ordered HTN problems to SAS+ (C102-C110). *)
From Coq Require Import Relations.
From Verif Require Import Base Htn_problem Htn_spec Htn_check To_spec To_sem Sas_model Sas_spec Sas_proof Sas_sim Sas_act Sas_rep Sas_stack Sas_ops Sas_run.

Section Thm.
  Variables (P : problem) (V : list (nat * nat)).
  Hypotheses (TB : to_base P V) (S0 : s0_found P V) (SE : single_effects P V) (LO : listed_in_order P) (LA : leading_agree P V).

  Lemma translate_good pgb : 1 <= pgb -> exists S T v0, sp_ok P V S /\ translate P V pgb = Some T /\ good P V S pgb T /\
    rep V (initial_state P) v0 /\ fd_init T = v0 ++ stv pgb [p_init P] /\
    (forall i d, In (i, d) (fd_goal T) <-> (exists e, In e (sp_goal S) /\ fact_of (sp_var S) i d e) \/ (i = length (sp_var S) /\ d = 0)) /\ sas_plus P V = Some S.
  Proof.
    intros PG. destruct TB as [WF [IV NV] OV PF AF]. assert (O0 : one_value V (initial_state P)) by (apply (OV []); exact Logic.I). destruct (sas_plus_ok P V WF IV NV O0 S0) as (S & ES & SP).
    destruct (conv_array_some (tvars P S pgb) (task0 P S pgb pgb)) as (c & EC); [eapply tv_int; eauto|].
    destruct (task_ok P V S pgb c WF IV SP OV PF SE LO AF PG EC) as (ops & T & v0 & EO & EW & R0 & EI & EG & A & B & C). exists S, T, v0. split; auto. split; [unfold translate; rewrite ES; cbn [obind]; rewrite EO; exact EW|]. split; [split; auto|]. auto.
  Qed.

  Lemma linear : linear_methods P. Proof. intros m I. exists (seq 0 (length (m_subs m))). now apply LO. Qed.

  (** C102: the translation is defined *)
  Theorem to_defined pgb : 1 <= pgb -> exists T, translate P V pgb = Some T.
  Proof. intros PG. destruct (translate_good pgb PG) as (S & T & v0 & _ & E & _). eauto. Qed.

  Lemma goals S v r k pgb (s : state) T : sp_ok P V S -> rep V s v -> r = v ++ stv pgb k ->
    (forall i d, In (i, d) (fd_goal T) <-> (exists e, In e (sp_goal S) /\ fact_of (sp_var S) i d e) \/ (i = length (sp_var S) /\ d = 0)) ->
    ((forall p, In p (fd_goal T) -> holds r p) <-> goal_state P s /\ k = []).
  Proof.
    intros SP RP -> EG. assert (Lv : length v = length (sp_var S)) by (destruct RP as [-> _]; symmetry; apply SP). assert (F := so_goal _ _ _ SP).
    assert (HK : holds (v ++ stv pgb k) (length (sp_var S), 0) <-> k = []). { rewrite <- Lv, <- (Nat.add_0_r (length v)). rewrite holds_back. apply stv_zero. }
    assert (HG : (forall i d e, In e (sp_goal S) -> fact_of (sp_var S) i d e -> holds (v ++ stv pgb k) (i, d)) <-> goal_state P s).
    { unfold goal_state. assert (X : forall i d b e, fact_of V i d b -> fact_of (sp_var S) i d e -> (s b <-> holds (v ++ stv pgb k) (i, d))).
      { intros i d b e F1 F2. rewrite holds_front by (rewrite Lv; eapply fact_of_lt; eauto). now apply (rep_fact V). }
      clear EG HK. induction F as [|b e l l' (i & d & F1 & F2) F IH]; cbn [In]; [split; [intros _ f []|intros _ i d e []]|]. split.
      - intros H f [<-|I]; [apply (X i d b e F1 F2); eauto|]. apply (proj1 IH); auto. intros i' d' e' I'. apply H. now right.
      - intros H i' d' e' [<-|I] F'; [|apply (proj2 IH) with (e := e'); auto]. destruct (W_inj P V S SP _ _ _ _ _ F2 F'). subst. apply (X i' d' b e); auto. }
    rewrite <- HG, <- HK. split.
    - intros H. split; [intros i d e I F'; apply H, EG; left; eauto|apply H, EG; auto].
    - intros [H1 H2] [i d] I. apply EG in I as [(e & I & F')|[-> ->]]; eauto.
  Qed.

  (** C103: soundness; the operators of a plan, without those written for inapplicable leading tasks, name the actions of a solution of the same cost *)
  Theorem to_sound pgb T pl : 1 <= pgb -> translate P V pgb = Some T -> fd_plan T pl ->
    solution P (printed (map fst (effective pl))) /\ fd_plan_cost (effective pl) = plan_cost P (printed (map fst (effective pl))).
  Proof.
    intros PG ET (w & RUN & G). destruct (translate_good pgb PG) as (S & T' & v0 & SP & ET' & GD & R0 & EI & EG & _). rewrite ET in ET'. injection ET' as <-. rewrite EI in RUN. destruct TB as [WF _ _ _ AF].
    destruct (run_sound P V S pgb T SP LO AF LA PG (g_like _ _ _ _ _ GD) pl _ w RUN (initial_state P) v0 [p_init P] eq_refl (reached_init P) R0) as (EX & C & v' & k' & -> & RP & D); [cbn; lia|]. split; auto.
    apply (proj1 (goals S v' _ k' pgb _ T SP RP eq_refl EG)) in G as [G K]. apply (derives_solution P WF linear). split; [|split; auto]. destruct (D K) as (plans & F & EL). inversion F as [|? p ? q (h & Dh) F']; subst. inversion F'; subst. exists h. rewrite EL. cbn. now rewrite app_nil_r.
  Qed.

  (** C104: completeness; every solution is printed, at the same cost, by a plan of the tasks for all bounds that are large enough *)
  Theorem to_complete plan : solution P plan -> exists b, forall pgb T, b <= pgb -> translate P V pgb = Some T ->
    exists pl, fd_plan T pl /\ effective pl = pl /\ printed (map fst pl) = plan /\ fd_plan_cost pl = plan_cost P plan.
  Proof.
    intros SOL. assert (TB' := TB). destruct TB' as [WF _ _ _ _]. apply (proj1 (derives_solution P WF linear plan)) in SOL as ((h & D) & EX & G).
    destruct (translate_good 1 (le_n _)) as (S & _ & _ & SP & _ & _ & _ & _ & _ & ES). destruct (derives_doable P V S WF SP LO LA h _ _ D) as (K & DK). exists (1 + K). intros pgb T L ET.
    destruct (translate_good pgb ltac:(lia)) as (S' & T' & v0 & _ & ET' & GD & R0 & EI & EG & ES'). rewrite ES in ES'. injection ES' as <-. rewrite ET in ET'. injection ET' as <-.
    destruct (DK pgb T (initial_state P) v0 [] GD) as (ops & v' & RUN & RP & PR & EF); auto; [cbn; lia|apply reached_init|]. cbn [app] in RUN. rewrite <- EI in RUN.
    assert (FP : fd_plan T ops). { exists (v' ++ stv pgb []). split; auto. apply (proj2 (goals S v' _ [] pgb _ T SP RP eq_refl EG)). auto. }
    exists ops. split; auto. split; auto. split; auto. destruct (to_sound pgb T ops ltac:(lia) ET FP) as [_ C]. rewrite EF, PR in C. exact C.
  Qed.
End Thm.

(** C105: the written task is well-formed: all values lie in the domains of their variables *)
Section Wf.
  Variables (P : problem) (V : list (nat * nat)).
  Hypothesis TB : to_base P V.

  Lemma fact_dom tv n c b i d T : intervals 0 tv n -> conv_array tv = Some c -> fd_dom T = map (fun v => S (snd v) - fst v) tv -> conv c b = Some (i, d) -> in_dom T (i, d).
  Proof.
    intros I E D C. apply (proj1 (conv_ok _ _ _ I E b i d)) in C as (f & l & En & <- & L). unfold in_dom. cbn [fst snd]. rewrite D, nth_error_map, En. cbn [option_map fst snd]. eexists. split; [reflexivity|]. lia.
  Qed.
  Lemma omap_dom tv n c l l' T : intervals 0 tv n -> conv_array tv = Some c -> fd_dom T = map (fun v => S (snd v) - fst v) tv -> omap (conv c) l = Some l' -> forall p, In p l' -> in_dom T p.
  Proof. intros I E D O [i d] J. destruct (omap_in _ _ _ _ O J) as (b & _ & C). eapply fact_dom; eauto. Qed.

  Theorem to_wf pgb T : s0_found P V -> single_effects P V -> listed_in_order P -> leading_agree P V -> 1 <= pgb -> translate P V pgb = Some T -> fd_wf T.
  Proof.
    intros S0 SE LO LA PG ET. destruct (translate_good P V TB S0 SE LO pgb PG) as (S & T' & v0 & SP & ET' & _ & R0 & EI & _ & ES). rewrite ET in ET'. injection ET' as <-. assert (ET' := ET).
    unfold translate in ET. rewrite ES in ET. cbn [obind] in ET. apply obind_some in ET as (ops & EO & ET). unfold write_task in ET. apply obind_some in ET as (c & EC & ET). apply obind_some in ET as (i1 & E1 & ET). apply obind_some in ET as (i2 & E2 & ET).
    apply obind_some in ET as (g1 & G1 & ET). apply obind_some in ET as (g2 & G2 & ET). apply obind_some in ET as (fs & EF & ET). set (T0 := {| fd_dom := _ |}) in ET. injection ET as ET. assert (IT := tv_int P V S pgb SP).
    assert (OD : forall l l', omap (conv c) l = Some l' -> forall p, In p l' -> in_dom T0 p) by (intros l l' O; eapply (omap_dom (tvars P S pgb)); eauto; reflexivity).
    rewrite <- ET in *. clear ET T. split.
    - assert (FD : forall b i d, conv c b = Some (i, d) -> in_dom T0 (i, d)) by (intros b i d; eapply (fact_dom (tvars P S pgb)); eauto; reflexivity).
      assert (Lv : length v0 = length (sp_var S)) by (destruct R0 as [-> _]; symmetry; apply SP). destruct TB as [WF _ _ _ _]. assert (Lt : p_init P < ntasks P) by (apply nth_error_Some; rewrite (wf_init P WF); discriminate).
      rewrite EI. split.
      + unfold T0. cbn [fd_dom]. unfold stv, tvars. rewrite map_length, !app_length, map_length, seq_length, Lv. cbn [length]. rewrite app_length, map_length, repeat_length. cbn. lia.
      + intros i d E. destruct (Nat.lt_ge_cases i (length v0)) as [Li|Li].
        * rewrite nth_error_app1 in E by auto. assert (VV := rep_valid P V S SP _ _ R0). destruct (proj2 VV i d E) as (b & F). apply (FD b). apply (CVW P V S pgb c SP PG EC); auto. now rewrite <- Lv.
        * rewrite nth_error_app2 in E by auto. replace i with (length (sp_var S) + (i - length v0)) by lia. destruct (i - length v0) as [|[|k]]; cbn in E.
          -- injection E as <-. rewrite Nat.add_0_r. apply (FD (head0 S + 1)). now apply (cv_head P V S pgb c SP PG EC).
          -- injection E as <-. apply (FD (task0 P S pgb 0 + Datatypes.S (p_init P))). apply (cv_task P V S pgb c SP PG EC); lia.
          -- assert (Lk : k < pgb - 1) by (rewrite <- (repeat_length 0 (pgb - 1)); apply nth_error_Some; congruence). apply nth_error_In, repeat_spec in E. subst d. apply (FD (task0 P S pgb (Datatypes.S k) + 0)). apply (cv_task P V S pgb c SP PG EC); lia.
    - intros p I. unfold T0 in I. cbn [fd_goal] in I. apply in_app_or in I as [I|I]; [apply (OD _ _ G1)|apply (OD _ _ G2)]; auto.
    - intros n o p I J. destruct (omap_in _ _ _ _ EF I) as (t & _ & Et). apply obind_some in Et as (f & Ew & Et). injection Et as <- <-. unfold write_top in Ew. apply obind_some in Ew as ([[pp pa]|] & _ & Ew); [|injection Ew as <-; destruct J].
      apply obind_some in Ew as (ps & Ep & Ew). apply obind_some in Ew as (es & Ee & Ew). injection Ew as <-. cbn [write_op f_prev] in J. apply filter_In in J as [J _]. apply (OD _ _ Ep); auto.
    - intros n o v x d I J. destruct (omap_in _ _ _ _ EF I) as (t & _ & Et). apply obind_some in Et as (f & Ew & Et). injection Et as <- <-. unfold write_top in Ew. apply obind_some in Ew as ([[pp pa]|] & _ & Ew); [|injection Ew as <-; destruct J].
      apply obind_some in Ew as (ps & Ep & Ew). apply obind_some in Ew as (es & Ee & Ew). injection Ew as <-. cbn [write_op f_eff] in J. apply in_map_iff in J as ([v' d'] & Ev & J). cbn [fst snd] in Ev. injection Ev as <- Ex <-. split; [apply (OD _ _ Ee); auto|].
      intros e ->. apply (OD _ _ Ep). now apply last_val_in.
  Qed.
End Wf.

(** ** Examples *)

(** Running operators given by their numbers *)
Definition holdsb (w : list nat) (p : nat * nat) : bool := match nth_error w (fst p) with Some d => d =? snd p | None => false end.
Definition appb (w : list nat) (o : fd_op) : bool :=
  forallb (holdsb w) (f_prev o) && forallb (fun e => match snd (fst e) with Some x => holdsb w (fst (fst e), x) | None => true end) (f_eff o).
Fixpoint run_ix (T : fd_task) (w : list nat) (l : list nat) : option (list (oname * fd_op) * list nat) :=
  match l with
  | [] => Some ([], w)
  | i :: r => match nth_error (fd_ops T) i with
              | Some (n, o) => if appb w o then '(pl, w') <- run_ix T (fd_result w o) r ;; Some ((n, o) :: pl, w') else None
              | None => None
              end
  end.
Lemma holdsb_ok w p : holdsb w p = true -> holds w p.
Proof. unfold holdsb, holds. destruct (nth_error w (fst p)) as [d|]; [|discriminate]. intros E. apply Nat.eqb_eq in E. congruence. Qed.
Lemma run_ix_ok T l : forall w pl w', run_ix T w l = Some (pl, w') -> fd_run T w pl w'.
Proof.
  induction l as [|i l IH]; intros w pl w'; cbn [run_ix]; [intros [= <- <-]; constructor|]. destruct (nth_error (fd_ops T) i) as [[n o]|] eqn:E; [|discriminate]. destruct (appb w o) eqn:A; [|discriminate].
  intros H. apply obind_some in H as ([pl' w1] & H & E'). injection E' as <- <-. apply andb_true_iff in A as [A1 A2]. rewrite forallb_forall in A1, A2. constructor; [eapply nth_error_In; eauto| |auto]. split.
  - intros p I. apply holdsb_ok. auto.
  - intros v x d I. apply holdsb_ok. now apply A2 in I.
Qed.
Lemma run_ix_plan T l pl w : run_ix T (fd_init T) l = Some (pl, w) -> forallb (holdsb w) (fd_goal T) = true -> fd_plan T pl.
Proof. intros R G. exists w. split; [eapply run_ix_ok; eauto|]. rewrite forallb_forall in G. intros p I. apply holdsb_ok. auto. Qed.

(** A method with primitive subtasks only *)
Lemma flat_derives P m h plan : wf_problem P -> p_methods P = [m] -> (forall t, In t (m_subs m) -> primitive P t) -> derives P h (m_task m) plan ->
  exists o, total_seq m o /\ plan = map (fun j => nth j (m_subs m) 0) o.
Proof.
  intros WF EM HP D. assert (I : In m (p_methods P)) by (rewrite EM; now left). assert (NT := wfm_task P m (wf_methods P WF m I)).
  destruct h as [|h]; cbn in D; (destruct D as [[Pt _]|D]; [unfold primitive in Pt; congruence|]); [destruct D|]. destruct D as (m' & o & plans & I' & _ & TS & F & ->). rewrite EM in I'. destruct I' as [<-|[]]. exists o. split; auto.
  clear TS. induction F as [|j p o ps (u & Eu & Du) F IH]; [reflexivity|]. cbn [concat map]. rewrite IH, (prim_derives P WF h u p); auto; [|apply HP; eapply nth_error_In; eauto]. now rewrite (nth_error_nth _ _ 0 Eu).
Qed.

Definition mk n pr ac ms s0 g : problem :=
  {| p_nfacts := n; p_prim := pr; p_prec := map (fun a => fst (fst a)) ac; p_add := map (fun a => snd (fst a)) ac; p_del := map snd ac;
     p_cost := map (fun i => 2 + i) (seq 0 (length ac)); p_methods := ms; p_init := length ac; p_s0 := s0; p_goal := g |}.

Lemma precs_in P a f l : nth_error (p_prec P) a = Some l -> precs P a f -> In f l.
Proof. intros E (l' & E' & I). congruence. Qed.
Lemma single_one V s : (forall i, i < length V -> single V i) -> one_value V s.
Proof. intros H i L N. now apply H in L. Qed.
Lemma single_prec P V : (forall i, i < length V -> single V i) -> prec_functional P V.
Proof.
  intros H a i b c _ _ (d & F) (d' & F'). assert (Q := H i (fact_of_lt _ _ _ _ F)). assert (X := single_fact _ _ _ _ Q F). assert (Y := single_fact _ _ _ _ Q F'). subst. eapply fact_of_fun; eauto.
Qed.
Definition singles (n : nat) : list (nat * nat) := map (fun i => (i, i)) (seq 0 n).
Lemma singles_single n i : i < length (singles n) -> single (singles n) i.
Proof. unfold singles. rewrite map_length, seq_length. intros L. exists i. rewrite nth_error_map, (nth_error_nth' _ 0) by (rewrite seq_length; exact L). now rewrite seq_nth. Qed.
Lemma singles_of n i b : of_var (singles n) i b -> i = b.
Proof.
  intros (d & f & l & E & <- & L). unfold singles in E. rewrite nth_error_map in E. assert (Li : i < n) by (destruct (Nat.lt_ge_cases i n) as [X|X]; auto; rewrite (proj2 (nth_error_None (seq 0 n) i)) in E by (rewrite seq_length; lia); discriminate).
  rewrite (nth_error_nth' _ 0) in E by (rewrite seq_length; exact Li). rewrite seq_nth in E by exact Li. cbn in E. injection E as <- <-. lia.
Qed.
Lemma singles_base P n : wf_problem P -> p_nfacts P = S n -> actions_first P -> to_base P (singles (S n)).
Proof.
  intros WF EN AF. split; auto.
  - split; [|discriminate]. rewrite EN. unfold singles. assert (X : forall k a, intervals a (map (fun i => (i, i)) (seq a k)) (a + k)) by (induction k as [|k IH]; intros a; cbn; [lia|]; split; auto; split; auto; rewrite Nat.add_succ_r; apply (IH (S a))). apply (X (S n) 0).
  - intros plan _. apply single_one, singles_single.
  - apply single_prec, singles_single.
Qed.

Module Ex.
  (** A robot with a place (facts 0, 1) and an object (fact 2): move, get, back; methods: 3 -> move get 4; 4 -> back; 3 -> move back 3 *)
  Definition p : problem := mk 3 [true; true; true; false; false] [([0], [1], [0]); ([1], [2], []); ([1], [0], [1])]
    [{| m_task := 3; m_subs := [0; 1; 4]; m_ord := [(0, 1); (1, 2)] |}; {| m_task := 4; m_subs := [2]; m_ord := [] |}; {| m_task := 3; m_subs := [0; 2; 3]; m_ord := [(0, 1); (1, 2)] |}] [0] [0; 2].
  Definition vs : list (nat * nat) := [(0, 1); (2, 2)].
  Lemma of0 b : of_var vs 0 b -> b = 0 \/ b = 1.
  Proof. intros (d & f & l & [= <- <-] & <- & L). lia. Qed.
  Lemma of1 b : of_var vs 1 b -> b = 2.
  Proof. intros (d & f & l & [= <- <-] & <- & L). lia. Qed.
  Lemma ofn i b : of_var vs i b -> i < 2. Proof. intros (d & F). apply fact_of_lt in F. exact F. Qed.
  Definition inv (s : state) : Prop := (s 0 /\ ~ s 1) \/ (s 1 /\ ~ s 0).
  Lemma inv_step s a : inv s -> applicable p s a -> inv (result p s a).
  Proof.
    unfold inv, applicable, result, precs, adds, dels. intros I A. destruct a as [|[|[|a]]]; cbn [p mk p_prec p_add p_del map nth_error fst snd] in *.
    - assert (s 0) by (apply A; eexists; split; [reflexivity|now left]). right. split; [left; eexists; split; [reflexivity|now left]|]. intros [(l & [= <-] & [|[]])|[_ N]]; [discriminate|]. apply N. eexists. split; [reflexivity|now left].
    - assert (s 1) by (apply A; eexists; split; [reflexivity|now left]). right. split; [right; split; auto; intros (l & [= <-] & [])|]. intros [(l & [= <-] & [|[]])|[X _]]; [discriminate|]. tauto.
    - assert (s 1) by (apply A; eexists; split; [reflexivity|now left]). left. split; [left; eexists; split; [reflexivity|now left]|]. intros [(l & [= <-] & [|[]])|[_ N]]; [discriminate|]. apply N. eexists. split; [reflexivity|now left].
    - destruct I as [[X Y]|[X Y]]; [left|right]; (split; [right; split; auto; intros (l & E & I); destruct a; discriminate|]); intros [(l & E & I)|[X' _]]; auto; destruct a; discriminate.
  Qed.
  Lemma base : to_base p vs.
  Proof.
    split.
    - apply problem_check_ok. reflexivity.
    - split; [cbn; repeat split; lia|discriminate].
    - assert (X : forall plan s, inv s -> executable p s plan -> inv (after p s plan)) by (induction plan as [|a r IH]; intros s I E; cbn in *; auto; apply IH; [now apply inv_step|tauto]).
      intros plan E i L NS. destruct i as [|[|i]]; [| |cbn in L; lia].
      + assert (F0 : of_var vs 0 0) by (exists 0, 0, 1; repeat split; lia). assert (F1 : of_var vs 0 1) by (exists 1, 0, 1; repeat split; lia).
        destruct (X plan (initial_state p)) as [[A B]|[A B]]; auto; [left; split; cbn; [now left|intros [|[]]; discriminate]| |]; [exists 0|exists 1]; (split; auto); intros c Fc; apply of0 in Fc as [->| ->]; split; intros Y; auto; try contradiction; discriminate.
      + exfalso. apply NS. exists 2. reflexivity.
    - intros a i b c Pb Pc Fb Fc. assert (Li := ofn _ _ Fb). destruct Pb as (lb & Eb & Ib), Pc as (lc & Ec & Ic). rewrite Eb in Ec. injection Ec as <-.
      destruct a as [|[|[|a]]]; [| | |destruct a; discriminate]; injection Eb as <-; destruct Ib as [<-|[]]; destruct Ic as [<-|[]]; reflexivity.
    - intros t L. cbn in L. destruct t as [|[|[|t]]]; try reflexivity. lia.
  Qed.
  Lemma s0 : s0_found p vs.
  Proof.
    split; [cbn; lia|]. split.
    - intros i b [<-|[]] F. assert (L := ofn _ _ F). destruct i as [|[|i]]; [cbn; lia| |lia]. apply of1 in F. discriminate.
    - intros H. exfalso. apply (H 1). exists 2. reflexivity.
  Qed.
  Lemma se : single_effects p vs.
  Proof.
    intros a i b (f & E) F (la & Ea & Ia) (ld & Ed & Id). assert (L := ofn _ _ F). destruct i as [|[|i]]; [cbn in E; congruence| |lia]. apply of1 in F. subst b. destruct a as [|[|[|a]]]; cbn in Ed; try (injection Ed as <-); cbn in Id; try tauto.
    - destruct Id as [|[]]. discriminate.
    - destruct Id as [|[]]. discriminate.
    - destruct a; discriminate.
  Qed.
  Lemma lo : listed_in_order p.
  Proof.
    intros m I. assert (X : forall n, (forall j, S j < n -> m_lt m j (S j)) -> length (m_subs m) = n -> total_seq m (seq 0 (length (m_subs m)))).
    { intros n H <-. split; [apply seq_NoDup|]. split; [intros j; rewrite in_seq; lia|]. intros l1 a l2 b E Ib.
      assert (Y : forall k j, j + S k < length (m_subs m) -> m_lt m j (j + S k)) by (induction k as [|k IH]; intros j L; [rewrite Nat.add_1_r; apply H; lia|]; eapply t_trans; [apply (IH j); lia|]; replace (j + S (S k)) with (S (j + S k)) by lia; apply H; lia).
      assert (La : nth_error (seq 0 (length (m_subs m))) (length l1) = Some a) by (rewrite E, nth_error_app2, Nat.sub_diag by lia; reflexivity).
      apply In_nth_error in Ib as (q & Eq). assert (Lb : nth_error (seq 0 (length (m_subs m))) (length l1 + S q) = Some b) by (rewrite E, nth_error_app2 by lia; replace (length l1 + S q - length l1) with (S q) by lia; exact Eq).
      assert (B1 : length l1 < length (m_subs m)) by (rewrite <- (seq_length (length (m_subs m)) 0); apply nth_error_Some; congruence). assert (B2 : length l1 + S q < length (m_subs m)) by (rewrite <- (seq_length (length (m_subs m)) 0) at 1; apply nth_error_Some; congruence).
      apply (nth_error_nth _ _ 0) in La. apply (nth_error_nth _ _ 0) in Lb. rewrite seq_nth in La, Lb by lia. cbn in La, Lb. subst. apply Y. lia. }
    destruct I as [<-|[<-|[<-|[]]]]; (eapply X; [|reflexivity]); cbn; intros j L; try lia; (destruct j as [|[|j]]; [| |lia]); apply t_step; cbn; auto.
  Qed.
  Lemma la : leading_agree p vs.
  Proof.
    assert (X : forall a c, (exists z, of_var vs 0 z /\ adds p a z) -> (forall f, precs p a f -> f <> 2) -> precs_agree p vs [a; c]).
    { intros a c (z & Fz & Az) N2 l1 a' l2 c' l3 i x y E Fx Fy Px Py H. destruct l1 as [|? [|? ?]]; cbn in E.
      - injection E as <- E. destruct l2 as [|? [|? ?]]; cbn in E; [|discriminate|discriminate]. injection E as <- <-. assert (L := ofn _ _ Fx). destruct i as [|[|i]]; [| |lia].
        + exfalso. apply (proj1 (H a z (or_introl eq_refl) Fz)). exact Az.
        + apply of1 in Fx. now apply N2 in Px.
      - injection E as _ E. destruct l2; discriminate.
      - destruct l; discriminate. }
    assert (Y : forall a, precs_agree p vs [a]). { intros a l1 a' l2 c' l3 i x y E. destruct l1 as [|? [|? ?]]; cbn in E; try discriminate; injection E as _ E; destruct l2; discriminate. }
    intros m l I (r & Es & HP & HN). destruct I as [<-|[<-|[<-|[]]]]; cbn [m_subs] in Es.
    - destruct l as [|a [|b [|c l]]]; cbn [app] in Es.
      + subst r. exfalso. eapply HN; [reflexivity|]. reflexivity.
      + injection Es as <- Es. exfalso. eapply HN; [symmetry; exact Es|]. reflexivity.
      + injection Es as <- <- Es. apply X; [exists 1; split; [exists 1, 0, 1; repeat split; lia|exists [1]; split; [reflexivity|now left]]|]. intros f (lf & Ef & If). injection Ef as <-. destruct If as [<-|[]]. discriminate.
      + injection Es as <- <- <- Es. exfalso. assert (Q := HP 4 ltac:(cbn; auto)). discriminate.
    - destruct l as [|a l]; cbn [app] in Es; [subst r; exfalso; eapply HN; [reflexivity|]; reflexivity|]. injection Es as <- Es. destruct l; [apply Y|discriminate].
    - destruct l as [|a [|b [|c l]]]; cbn [app] in Es.
      + subst r. exfalso. eapply HN; [reflexivity|]. reflexivity.
      + injection Es as <- Es. exfalso. eapply HN; [symmetry; exact Es|]. reflexivity.
      + injection Es as <- <- Es. apply X; [exists 1; split; [exists 1, 0, 1; repeat split; lia|exists [1]; split; [reflexivity|now left]]|]. intros f (lf & Ef & If). injection Ef as <-. destruct If as [<-|[]]. discriminate.
      + injection Es as <- <- <- Es. exfalso. assert (Q := HP 3 ltac:(cbn; auto)). discriminate.
  Qed.

  Example plan_ex : exists T pl, translate p vs 2 = Some T /\ fd_plan T pl /\ printed (map fst (effective pl)) = [0; 2; 0; 1; 2] /\ fd_plan_cost pl = 15.
  Proof.
    destruct (translate p vs 2) as [T|] eqn:E; [|vm_compute in E; discriminate]. destruct (run_ix T (fd_init T) [10; 6; 8]) as [[pl w]|] eqn:R; [|vm_compute in E; injection E as <-; vm_compute in R; discriminate].
    exists T, pl. split; auto. split; [apply (run_ix_plan _ _ _ _ R)|]; vm_compute in E; injection E as <-; vm_compute in R; injection R as <- <-; [reflexivity|split; reflexivity].
  Qed.
  Example solution_ex : solution p [0; 2; 0; 1; 2].
  Proof. destruct plan_ex as (T & pl & E & F & PR & _). destruct (to_sound p vs base s0 se lo la 2 T pl (le_S _ _ (le_n 1)) E F) as [X _]. now rewrite PR in X. Qed.
  Example complete_ex : exists b, forall pgb T, b <= pgb -> translate p vs pgb = Some T -> exists pl, fd_plan T pl /\ printed (map fst pl) = [0; 2; 0; 1; 2].
  Proof. destruct (to_complete p vs base s0 se lo la _ solution_ex) as (b & H). exists b. intros pgb T L E. destruct (H pgb T L E) as (pl & A & _ & B & _). eauto. Qed.
  Example wf_ex : exists T, translate p vs 2 = Some T /\ fd_wf T.
  Proof. destruct (to_defined p vs base s0 se lo 2 (le_S _ _ (le_n 1))) as (T & E). exists T. split; auto. exact (to_wf p vs base 2 T s0 se lo la (le_S _ _ (le_n 1)) E). Qed.
End Ex.

(** ** What does not hold *)

(** C106: the subtasks of the methods may be listed in any order *)
Definition any_listing : Prop := forall P V pgb T pl, to_base P V -> s0_found P V -> single_effects P V -> linear_methods P -> leading_agree P V -> 1 <= pgb ->
  translate P V pgb = Some T -> fd_plan T pl -> solution P (printed (map fst (effective pl))).
(** C107: plans may contain any operator *)
Definition all_printed : Prop := forall P V pgb T pl, to_base P V -> s0_found P V -> single_effects P V -> listed_in_order P -> leading_agree P V -> 1 <= pgb ->
  translate P V pgb = Some T -> fd_plan T pl -> solution P (printed (map fst pl)).
(** C108: the initial state may be listed in any way *)
Definition any_initial : Prop := forall P V pgb T pl, to_base P V -> single_effects P V -> listed_in_order P -> leading_agree P V -> 1 <= pgb ->
  translate P V pgb = Some T -> fd_plan T pl -> solution P (printed (map fst (effective pl))).
(** C109: leading tasks may have any preconditions *)
Definition any_leading : Prop := forall P V pgb T pl, to_base P V -> s0_found P V -> single_effects P V -> listed_in_order P -> 1 <= pgb ->
  translate P V pgb = Some T -> fd_plan T pl -> solution P (printed (map fst (effective pl))).
(** C110: actions may add and delete a fact *)
Definition any_effects : Prop := forall P V plan, to_base P V -> s0_found P V -> listed_in_order P -> leading_agree P V ->
  solution P plan -> exists b, forall pgb, b <= pgb -> exists T pl, translate P V pgb = Some T /\ fd_plan T pl.
(** C111: the reordered subtasks are a permutation of the subtasks, for every partial order *)
Definition reorder_permutes : Prop := forall P m s f, wf_method P m -> reorder (p_prim P) m = Some (s, f) -> forall t, In t (m_subs m) -> In t s.

Lemma in_order_check P : forallb (fun m => forallb (fun j => existsb (fun e => (fst e =? j) && (snd e =? S j)) (m_ord m)) (seq 0 (length (m_subs m) - 1))) (p_methods P) = true -> listed_in_order P.
Proof.
  intros H m I. rewrite forallb_forall in H. specialize (H m I). rewrite forallb_forall in H. assert (ST : forall j, S j < length (m_subs m) -> m_lt m j (S j)).
  { intros j L. specialize (H j). rewrite in_seq in H. specialize (H ltac:(lia)). apply existsb_exists in H as ([a b] & J & E). apply andb_true_iff in E as [E1 E2]. apply Nat.eqb_eq in E1, E2. cbn in E1, E2. subst. now apply t_step. }
  split; [apply seq_NoDup|]. split; [intros j; rewrite in_seq; lia|]. intros l1 a l2 b E Ib.
  assert (Y : forall k j, j + S k < length (m_subs m) -> m_lt m j (j + S k)) by (induction k as [|k IH]; intros j L; [rewrite Nat.add_1_r; apply ST; lia|]; eapply t_trans; [apply (IH j); lia|]; replace (j + S (S k)) with (S (j + S k)) by lia; apply ST; lia).
  assert (La : nth_error (seq 0 (length (m_subs m))) (length l1) = Some a) by (rewrite E, nth_error_app2, Nat.sub_diag by lia; reflexivity).
  apply In_nth_error in Ib as (q & Eq). assert (Lb : nth_error (seq 0 (length (m_subs m))) (length l1 + S q) = Some b) by (rewrite E, nth_error_app2 by lia; replace (length l1 + S q - length l1) with (S q) by lia; exact Eq).
  assert (B1 : length l1 < length (m_subs m)) by (rewrite <- (seq_length (length (m_subs m)) 0); apply nth_error_Some; congruence). assert (B2 : length l1 + S q < length (m_subs m)) by (rewrite <- (seq_length (length (m_subs m)) 0) at 1; apply nth_error_Some; congruence).
  apply (nth_error_nth _ _ 0) in La. apply (nth_error_nth _ _ 0) in Lb. rewrite seq_nth in La, Lb by lia. cbn in La, Lb. subst. apply Y. lia.
Qed.
Lemma singles_agree P n : leading_agree P (singles n).
Proof. intros m l _ _ l1 a l2 c l3 i x y _ Fx Fy _ _ _. apply singles_of in Fx. apply singles_of in Fy. congruence. Qed.
Lemma acts_first_check P : forallb (fun b => b) (firstn (length (p_cost P)) (p_prim P)) = true -> length (p_cost P) <= length (p_prim P) -> actions_first P.
Proof.
  intros H L t Lt. rewrite forallb_forall in H. unfold primitive. destruct (nth_error (p_prim P) t) as [b|] eqn:E; [|apply nth_error_None in E; lia]. f_equal. apply H.
  rewrite <- (firstn_skipn (length (p_cost P)) (p_prim P)) in E. rewrite nth_error_app1 in E by (rewrite firstn_length; lia). eapply nth_error_In; eauto.
Qed.

Module Bad.
  (** 1 before 0 before 2, but the leading tasks are carried out as 0, 2, 1 *)
  Definition m1 : method := {| m_task := 3; m_subs := [0; 1; 2]; m_ord := [(1, 0); (0, 2)] |}.
  Definition p1 : problem := mk 4 [true; true; true; false] [([], [1], []); ([2], [3], []); ([1], [2], [])] [m1] [0] [3].
  Lemma wf1 : wf_problem p1.
  Proof.
    assert (X : wf_problem (mk 4 [true; true; true; false] [([], [1], []); ([2], [3], []); ([1], [2], [])] [{| m_task := 3; m_subs := [0; 1; 2]; m_ord := [] |}] [0] [3])) by (apply problem_check_ok; reflexivity).
    destruct X as [A B C D E F G H I]. split; auto. intros m [<-|[]]. destruct (I _ (or_introl eq_refl)) as [J K L _ _]. split; auto.
    - intros j k [[= <- <-]|[[= <- <-]|[]]]; cbn; lia.
    - assert (R : forall a b, m_lt m1 a b -> nth a [1; 0; 2] 0 < nth b [1; 0; 2] 0) by (induction 1 as [a b Q|a b c _ Q _ Q']; [destruct Q as [[= <- <-]|[[= <- <-]|[]]]; cbn; lia|lia]). intros j Q. apply R in Q. lia.
  Qed.
  Lemma total1 : total_seq m1 [1; 0; 2].
  Proof.
    split; [repeat constructor; cbn; lia|]. split; [intros j; cbn; lia|]. assert (A : m_lt m1 1 0) by (apply t_step; cbn; auto). assert (B : m_lt m1 0 2) by (apply t_step; cbn; auto).
    intros l1 a l2 b E I. destruct l1 as [|? [|? [|? ?]]]; cbn in E.
    - injection E as <- <-. destruct I as [<-|[<-|[]]]; auto. eapply t_trans; eauto.
    - injection E as _ <- <-. destruct I as [<-|[]]; auto.
    - injection E as _ _ <- <-. destruct I.
    - destruct l; discriminate.
  Qed.

  Definition p2 : problem := mk 1 [true; true; false] [([], [], [0]); ([0], [], [])] [{| m_task := 2; m_subs := [0; 1]; m_ord := [(0, 1)] |}; {| m_task := 2; m_subs := [0]; m_ord := [] |}] [0] [].
  Definition p3 : problem := mk 3 [true; false] [([0], [], [])] [{| m_task := 1; m_subs := [0]; m_ord := [] |}] [2] [].
  Definition p4 : problem := mk 2 [true; true; false] [([0], [], []); ([1], [], [])] [{| m_task := 2; m_subs := [0; 1]; m_ord := [(0, 1)] |}] [0] [].
  Definition p5 : problem := mk 1 [true; false] [([], [0], [0])] [{| m_task := 1; m_subs := [0]; m_ord := [] |}] [] [0].
End Bad.

Ltac base_tac := apply singles_base; [apply problem_check_ok; reflexivity|reflexivity|apply acts_first_check; [reflexivity|cbn; lia]].
Ltac run_tac E R := vm_compute in E; injection E as <-; vm_compute in R; try discriminate.

Theorem any_listing_refuted : ~ any_listing.
Proof.
  intros H. destruct (translate Bad.p1 (singles 4) 1) as [T|] eqn:E; [|vm_compute in E; discriminate]. destruct (run_ix T (fd_init T) [3]) as [[pl w]|] eqn:R; [|run_tac E R].
  assert (FP : fd_plan T pl) by (apply (run_ix_plan _ _ _ _ R); run_tac E R; injection R as <- <-; reflexivity). assert (LM : linear_methods Bad.p1) by (intros m [<-|[]]; exists [1; 0; 2]; apply Bad.total1).
  assert (S : solution Bad.p1 (printed (map fst (effective pl)))).
  { apply (H Bad.p1 (singles 4) 1 T pl); auto.
    - apply singles_base; [apply Bad.wf1|reflexivity|apply acts_first_check; [reflexivity|cbn; lia]].
    - split; [cbn; lia|]. split; [intros i b [<-|[]] F; apply singles_of in F; subst; cbn; lia|]. intros N. exfalso. apply (N 0). exists 0. reflexivity.
    - intros a i b _ _ _ (l & E' & I). destruct a as [|[|[|a]]]; [| | |destruct a; discriminate]; injection E' as <-; destruct I.
    - apply singles_agree. }
  assert (PR : printed (map fst (effective pl)) = [0; 2; 1]) by (run_tac E R; injection R as <- <-; reflexivity). rewrite PR in S.
  apply (proj1 (derives_solution Bad.p1 Bad.wf1 LM _)) in S as ((h & D) & _). assert (PT : forall t, In t (m_subs Bad.m1) -> primitive Bad.p1 t) by (intros t [<-|[<-|[<-|[]]]]; reflexivity).
  destruct (flat_derives Bad.p1 Bad.m1 h _ Bad.wf1 eq_refl PT D) as (o & TS & EO).
  - destruct TS as (_ & Hin & Hord). assert (o = [0; 2; 1]).
    { assert (ID : forall j, In j o -> nth j (m_subs Bad.m1) 0 = j) by (intros j I; apply Hin in I; cbn in I; destruct j as [|[|[|j]]]; try reflexivity; lia). assert (X : map (fun j => nth j (m_subs Bad.m1) 0) o = map (fun j => j) o) by (apply map_ext_in; exact ID). rewrite X, map_id in EO. auto. }
    subst o. assert (X := Hord [0] 2 [1] 1 eq_refl (or_introl eq_refl)). apply m_lt_step in X as (c & I & _). destruct I as [|[|[]]]; discriminate.
Qed.

Theorem all_printed_refuted : ~ all_printed.
Proof.
  intros H. destruct (translate Bad.p2 (singles 1) 1) as [T|] eqn:E; [|vm_compute in E; discriminate]. destruct (run_ix T (fd_init T) [2; 3]) as [[pl w]|] eqn:R; [|run_tac E R].
  assert (FP : fd_plan T pl) by (apply (run_ix_plan _ _ _ _ R); run_tac E R; injection R as <- <-; reflexivity).
  assert (S : solution Bad.p2 (printed (map fst pl))).
  { apply (H Bad.p2 (singles 1) 1 T pl); auto.
    - base_tac.
    - split; [cbn; lia|]. split; [intros i b [<-|[]] F; apply singles_of in F; subst; cbn; lia|]. intros N. exfalso. apply (N 0). exists 0. reflexivity.
    - intros a i b _ _ (l & E' & I) _. destruct a as [|[|a]]; [| |destruct a; discriminate]; injection E' as <-; destruct I.
    - apply in_order_check. reflexivity.
    - apply singles_agree. }
  assert (PR : printed (map fst pl) = [0; 1; 0]) by (run_tac E R; injection R as <- <-; reflexivity). rewrite PR in S. destruct S as (tn & L & _ & _ & _ & _ & EX & _). cbn [executable] in EX. destruct EX as (_ & A & _).
  destruct (A 0) as [(l & El & Il)|(_ & N)]; [exists [0]; split; [reflexivity|now left]|injection El as <-; destruct Il|]. apply N. exists [0]. split; [reflexivity|now left].
Qed.

Theorem any_initial_refuted : ~ any_initial.
Proof.
  intros H. destruct (translate Bad.p3 (singles 3) 1) as [T|] eqn:E; [|vm_compute in E; discriminate]. destruct (run_ix T (fd_init T) [1]) as [[pl w]|] eqn:R; [|run_tac E R].
  assert (FP : fd_plan T pl) by (apply (run_ix_plan _ _ _ _ R); run_tac E R; injection R as <- <-; reflexivity).
  assert (S : solution Bad.p3 (printed (map fst (effective pl)))).
  { apply (H Bad.p3 (singles 3) 1 T pl); auto.
    - base_tac.
    - intros a i b _ _ (l & E' & I) _. destruct a as [|a]; [|destruct a; discriminate]; injection E' as <-; destruct I.
    - apply in_order_check. reflexivity.
    - apply singles_agree. }
  assert (PR : printed (map fst (effective pl)) = [0]) by (run_tac E R; injection R as <- <-; reflexivity). rewrite PR in S. destruct S as (tn & L & _ & _ & _ & _ & EX & _). cbn [executable] in EX. destruct EX as (A & _).
  destruct (A 0) as [|[]]; [exists [0]; split; [reflexivity|now left]|discriminate].
Qed.

Theorem any_leading_refuted : ~ any_leading.
Proof.
  intros H. set (V := [(0, 1)]). destruct (translate Bad.p4 V 1) as [T|] eqn:E; [|vm_compute in E; discriminate]. destruct (run_ix T (fd_init T) [2]) as [[pl w]|] eqn:R; [|run_tac E R].
  assert (FP : fd_plan T pl) by (apply (run_ix_plan _ _ _ _ R); run_tac E R; injection R as <- <-; reflexivity).
  assert (NS : forall i, ~ single V i) by (intros [|i] (f & E'); [cbn in E'; congruence|destruct i; discriminate]).
  assert (OF : forall i b, of_var V i b -> i = 0 /\ (b = 0 \/ b = 1)) by (intros [|i] b (d & f & l & E' & <- & Lf); [cbn in E'; injection E' as <- <-; lia|destruct i; discriminate]).
  assert (NE : forall s a f, result Bad.p4 s a f <-> s f).
  { intros s a f. unfold result. assert (NA : ~ adds Bad.p4 a f) by (intros (l & E' & I); destruct a as [|[|a]]; [| |destruct a; discriminate]; injection E' as <-; destruct I). assert (ND : ~ dels Bad.p4 a f) by (intros (l & E' & I); destruct a as [|[|a]]; [| |destruct a; discriminate]; injection E' as <-; destruct I). tauto. }
  assert (S : solution Bad.p4 (printed (map fst (effective pl)))).
  { apply (H Bad.p4 V 1 T pl); auto.
    - split.
      + apply problem_check_ok. reflexivity.
      + split; [cbn; repeat split; lia|discriminate].
      + assert (AF : forall plan s f, after Bad.p4 s plan f <-> s f) by (induction plan as [|a r IH]; intros s f; cbn; [tauto|]; rewrite IH; apply NE).
        intros plan _ i Li _. assert (i = 0) by (cbn in Li; lia). subst i. exists 0. split; [exists 0, 0, 1; repeat split; lia|]. intros c Fc. rewrite AF. unfold initial_state. cbn. split; [intros [<-|[]]; auto|intros ->; auto].
      + intros a i b c (lb & Eb & Ib) (lc & Ec & Ic) _ _. rewrite Eb in Ec. injection Ec as <-. destruct a as [|[|a]]; [| |destruct a; discriminate]; injection Eb as <-; destruct Ib as [<-|[]]; destruct Ic as [<-|[]]; reflexivity.
      + apply acts_first_check; [reflexivity|cbn; lia].
    - split; [cbn; lia|]. split; [intros i b _ F; apply OF in F; cbn; lia|]. intros _. split; [reflexivity|]. intros [|i] b E'; [injection E' as <-; exists 0, 0, 1; repeat split; lia|destruct i; discriminate].
    - intros a i b Q. now apply NS in Q.
    - apply in_order_check. reflexivity. }
  assert (PR : printed (map fst (effective pl)) = [0; 1]) by (run_tac E R; injection R as <- <-; reflexivity). rewrite PR in S. destruct S as (tn & L & _ & _ & _ & _ & EX & _). cbn [executable] in EX. destruct EX as (_ & A & _).
  assert (X := A 1 ltac:(exists [1]; split; [reflexivity|now left])). apply NE in X. destruct X as [|[]]. discriminate.
Qed.

Theorem reorder_permutes_refuted : ~ reorder_permutes.
Proof.
  intros H. set (m := {| m_task := 3; m_subs := [0; 1; 2]; m_ord := [(0, 1)] |}). assert (WF : wf_problem (mk 1 [true; true; true; false] [([], [], []); ([], [], []); ([], [], [])] [m] [] [])) by (apply problem_check_ok; reflexivity).
  specialize (H _ m [2; 1; 1] 3 (wf_methods _ WF m (or_introl eq_refl)) eq_refl 0 (or_introl eq_refl)). cbn in H. lia.
Qed.

Lemma settled c l es : (forall b d, conv c b = Some (0, d) <-> b < 2 /\ d = b) -> omap (conv c) l = Some es -> forall l1 l2, l = l1 ++ [0; 1] ++ l2 -> (forall b, In b l2 -> 2 <= b) -> last_val 0 es None = Some 1.
Proof.
  intros H E l1 l2 -> G2. rewrite !omap_app in E. apply obind_some in E as (e1 & _ & E). apply obind_some in E as (e2 & E & E'). injection E' as <-. cbn [omap] in E. rewrite (proj2 (H 0 0)), (proj2 (H 1 1)) in E by lia. cbn [obind] in E.
  apply obind_some in E as (x & E2 & E). injection E as <-.
  assert (A : forall q acc, last_val 0 (e1 ++ q) acc = last_val 0 q (last_val 0 e1 acc)) by (induction e1 as [|[a b] e1 IH]; intros q acc; cbn; auto). rewrite A. cbn [app last_val Nat.eqb]. clear A.
  revert x E2. induction l2 as [|b l2 IH]; cbn [omap]; intros x E2; [injection E2 as <-; reflexivity|]. apply obind_some in E2 as ([v d] & Eb & E2). apply obind_some in E2 as (y & Ey & E2). injection E2 as <-. cbn [last_val].
  destruct v as [|v]; [apply H in Eb; specialize (G2 b (or_introl eq_refl)); lia|]. cbn [Nat.eqb]. apply IH; auto. intros b' I. apply G2. now right.
Qed.

Theorem any_effects_refuted : ~ any_effects.
Proof.
  intros H. destruct (H Bad.p5 (singles 1) [0]) as (b & Hb).
  - base_tac.
  - split; [cbn; lia|]. split; [intros i q []|]. intros N. exfalso. apply (N 0). exists 0. reflexivity.
  - apply in_order_check. reflexivity.
  - apply singles_agree.
  - assert (LM : linear_methods Bad.p5) by (intros m [<-|[]]; exists [0]; split; [repeat constructor; auto|split; [intros j; cbn; lia|intros [|? [|? ?]] x l2 y Q I; [injection Q as <- <-; destruct I|discriminate|discriminate]]]).
    assert (WF : wf_problem Bad.p5) by (apply problem_check_ok; reflexivity). apply (proj2 (derives_solution Bad.p5 WF LM [0])). split; [|split].
    + exists 1. cbn. right. exists {| m_task := 1; m_subs := [0]; m_ord := [] |}, [0], [[0]]. split; [now left|]. split; [reflexivity|]. split; [split; [repeat constructor; auto|split; [intros j; cbn; lia|intros [|? [|? ?]] x l2 y Q I; [injection Q as <- <-; destruct I|discriminate|discriminate]]]|].
      split; [|reflexivity]. constructor; [|constructor]. exists 0. split; [reflexivity|]. left. split; reflexivity.
    + cbn. split; [|exact Logic.I]. intros f (l & E & I). injection E as <-. destruct I.
    + intros f [<-|[]]. cbn. left. exists [0]. split; [reflexivity|now left].
  - destruct (Hb (S b) ltac:(lia)) as (T & pl & ET & w & RUN & G). set (pgb := S b) in *. assert (PG : 1 <= pgb) by (unfold pgb; lia). clearbody pgb. clear Hb H.
    set (S5 := {| sp_var := [(0, 1)]; sp_prec := [[]]; sp_add := [[0; 1]]; sp_s0 := [1]; sp_goal := [0] |}). unfold translate in ET. change (sas_plus Bad.p5 (singles 1)) with (Some S5) in ET. cbn [obind] in ET. apply obind_some in ET as (ops & EO & ET).
    assert (TV : intervals 0 (tvars Bad.p5 S5 pgb) (task0 Bad.p5 S5 pgb pgb)) .
    { unfold tvars. apply intervals_app. exists 2. split; [cbn; lia|]. cbn [app intervals fst snd]. change (head0 S5) with 2. split; [reflexivity|]. split; [lia|]. replace (S (2 + pgb)) with (task0 Bad.p5 S5 pgb 0) by (unfold task0; change (head0 S5) with 2; lia). apply (task_int Bad.p5 S5 pgb PG pgb 0). }
    unfold write_task in ET. apply obind_some in ET as (c & EC & ET). assert (CV := conv_ok _ _ _ TV EC).
    assert (C0 : forall b d, conv c b = Some (0, d) <-> b < 2 /\ d = b).
    { intros q d. rewrite CV. split; [intros (f & l & E & A & B); cbn in E; injection E as <- <-; lia|intros [A ->]; exists 0, 1; repeat split; lia]. }
    change (sp_s0 S5) with [1] in ET. cbn [omap] in ET. rewrite (proj2 (C0 1 1)) in ET by lia. cbn [obind] in ET. apply obind_some in ET as (i2 & _ & ET). change (sp_goal S5) with [0] in ET. cbn [omap] in ET. rewrite (proj2 (C0 0 0)) in ET by lia. cbn [obind] in ET.
    apply obind_some in ET as (g2 & _ & ET). apply obind_some in ET as (fs & EF & ET). injection ET as <-.
    assert (INV : forall n o, In (n, o) fs -> exists es ps k, o = write_op ps es k /\ last_val 0 es None = Some 1).
    { intros n o I. destruct (omap_in _ _ _ _ EF I) as (t & It & Et). apply filter_In in It as [It _]. apply obind_some in Et as (f & Ew & Et). injection Et as <- <-.
      unfold top_ops in EO. apply obind_some in EO as (la & Ea & EO). apply obind_some in EO as (lm & Em & EO). injection EO as <-. apply in_app_or in It as [It|It].
      - unfold act_ops in Ea. cbn [Bad.p5 mk p_cost length map seq omap get nth_error sp_prec sp_add S5 obind concat app] in Ea. injection Ea as <-. rewrite app_nil_r in It. apply in_map_iff in It as (j & <- & Ij).
        unfold write_top, act_op in Ew. cbn [o_name o_prec o_add o_cost obind] in Ew. apply obind_some in Ew as (ps & _ & Ew). apply obind_some in Ew as (es & Ee & Ew). injection Ew as <-. exists es, ps, 2. split; [reflexivity|].
        rewrite app_nil_r in Ee. apply (settled c _ es C0 Ee [] [task0 Bad.p5 S5 pgb j; head0 S5 + j]); [reflexivity|]. intros q [<-|[<-|[]]]; unfold task0; change (head0 S5) with 2; lia.
      - unfold meth_ops in Em. apply obind_some in Em as (l & El & Em). injection Em as <-. cbn [Bad.p5 mk p_methods length seq combine omap fst snd] in El.
        change (reorder (p_prim Bad.p5) {| m_task := 1; m_subs := [0]; m_ord := [] |}) with (Some ([0], 1)) in El. cbn [obind] in El. apply obind_some in El as (l' & El & E'). injection E' as <-. cbn [concat] in It. rewrite app_nil_r in It. destruct (omap_in _ _ _ _ El It) as (j & Ij & Ej).
        unfold meth_op in Ej. cbn [length Nat.sub rev app firstn omap get Bad.p5 mk p_cost map seq nth_error obind Nat.eqb] in Ej. injection Ej as <-.
        unfold write_top in Ew. cbn [o_name o_prec o_add o_cost macro get S5 sp_prec sp_add nth_error obind] in Ew. apply obind_some in Ew as (ps & _ & Ew). apply obind_some in Ew as (es & Ee & Ew). injection Ew as <-. eexists es, ps, _. split; [reflexivity|].
        apply (settled c _ es C0 Ee [head0 S5 + j; task0 Bad.p5 S5 pgb j] []); [reflexivity|]. intros q []. }
    assert (V1 : forall s pl s', fd_run {| fd_dom := map (fun v => S (snd v) - fst v) (tvars Bad.p5 S5 pgb); fd_init := map snd ([(0, 1)] ++ i2); fd_goal := [(0, 0)] ++ g2; fd_ops := fs |} s pl s' -> nth_error s 0 = Some 1 -> nth_error s' 0 = Some 1).
    { clear - INV. induction 1 as [|s n o r s' I _ _ IH]; intros N; auto. apply IH. destruct (INV n o I) as (es & ps & k & -> & L). rewrite wo_res, nth_fassign, L. destruct s; [discriminate|reflexivity]. }
    assert (X := V1 _ _ _ RUN eq_refl). assert (Y := G (0, 0) (or_introl eq_refl)). change (nth_error w 0 = Some 0) in Y. congruence.
Qed.

Print Assumptions to_defined.
Print Assumptions to_sound.
Print Assumptions to_complete.
Print Assumptions to_wf.
Print Assumptions any_listing_refuted.
Print Assumptions all_printed_refuted.
Print Assumptions any_initial_refuted.
Print Assumptions any_leading_refuted.
Print Assumptions any_effects_refuted.
Print Assumptions reorder_permutes_refuted.
