(** Pruning of leaf primitives with Rintanen's algorithm. *)
From Coq Require Import ZArith Lia.
From Verif Require Import Base Htn_problem Htn_spec Sf_spec Sf_proof Pdt_model Pdt_spec Pdt_tree Pdt_expand Pdt_prune Pdt_leafs Inv_model Inv_spec Inv_rint Inv_close Mx_model Mx_spec.
Local Open Scope Z_scope.

Section Prune.
  Variable P : problem.
  Hypothesis WF : wf_problem P.
  Notation n := (p_nfacts P).
  Notation lfs := (list (list nat * pnode)).
  Definition clean (p : nat) : Prop := forall f, adds P p f -> ~ dels P p f.

  Lemma prim_prec p : primitive P p -> (p < length (p_prec P))%nat.
  Proof. intros H. apply (wf_prim _ WF) in H. now rewrite (wf_prec _ WF). Qed.
  Lemma rl_prims_ok R q F prims : rint_ok n R -> (forall p, In p prims -> primitive P p) -> exists its exe, rl_prims P R q F prims = Some (its, exe) /\
    (forall p pp np, In (p, (pp, np)) exe -> In p prims /\ length pp = n /\ length np = n) /\
    (forall i, In i its -> exists j p, nth_error prims j = Some p /\ i = IP q j /\ ~ In i F) /\
    (forall s j p, nth_error prims j = Some p -> ~ In (IP q j) F -> models (live R) s -> applicable P s p -> ~ In (IP q j) its /\ exists pp np, In (p, (pp, np)) exe /\ sound_for s pp np).
  Proof.
    intros O PO. unfold rl_prims.
    assert (AP : forall p, In p prims -> exists o, rint_applicable P p R = Some o /\ forall pp np, o = Some (pp, np) -> length pp = n /\ length np = n).
    { intros p Hp. destruct (applicable_ok P WF False (fun _ => False) R p O (prim_prec p (PO p Hp)) (fun f => match f with end)) as (o & E & _ & H). exists o. split; auto. intros pp np Eo. destruct (H pp np Eo) as (H1 & H2 & _). auto. }
    match goal with |- context [omap ?f ?l] => destruct (omap_ok f l) as (rs & E) end.
    { intros [i p] Hi. apply enum_in in Hi. destruct (marked F (IP q i)); [eauto|]. destruct (AP p) as (o & -> & _); [eapply nth_error_In; eauto|]. cbn [obind]. destruct o; eauto. }
    rewrite E. cbn [obind]. eexists _, _. split; [reflexivity|]. apply omap_some in E. split; [|split].
    - intros p pp np Hp. apply in_concat in Hp as (l & Hl & Hp). apply in_map_iff in Hl as ([a b] & <- & Hr). destruct (forall2_in_r _ _ _ _ E Hr) as ([i x] & Hi & Ei). apply enum_in in Hi. destruct (marked F (IP q i)); [injection Ei as <- <-; destruct Hp|]. apply obind_some in Ei as (o & Eo & Ei). apply nth_error_In in Hi.
      destruct o as [x'|]; apply some_eq, pair_equal_spec in Ei as [-> ->]; cbn [snd] in Hp; [|destruct Hp]. destruct Hp as [Ex|[]]. apply pair_equal_spec in Ex as [-> ->]. destruct (AP p Hi) as (o' & Eo' & H). rewrite Eo in Eo'. apply some_eq in Eo'. split; auto.
    - intros i Hi. apply in_concat in Hi as (l & Hl & Hp). apply in_map_iff in Hl as ([a b] & <- & Hr). destruct (forall2_in_r _ _ _ _ E Hr) as ([j x] & Hj & Ei). apply enum_in in Hj. destruct (marked F (IP q j)) eqn:M; [injection Ei as <- <-; destruct Hp|]. apply marked_out in M. apply obind_some in Ei as (o & Eo & Ei).
      destruct o as [x'|]; apply some_eq, pair_equal_spec in Ei as [-> ->]; cbn [fst] in Hp; [destruct Hp|]. destruct Hp as [<-|[]]. eauto.
    - intros s j p Hj NF Ms As. assert (Hp : In p prims) by (eapply nth_error_In; eauto).
      destruct (applicable_ok P WF True s R p O (prim_prec p (PO p Hp)) (fun _ => conj Ms As)) as (o & Eo & NO & SO). destruct o as [[pp np]|]; [|destruct (NO I eq_refl)]. destruct (SO pp np eq_refl) as (_ & _ & SS). specialize (SS I). split.
      + intros Hi. apply in_concat in Hi as (l & Hl & Hi). apply in_map_iff in Hl as ([a b] & <- & Hr). destruct (forall2_in_r _ _ _ _ E Hr) as ([k x] & Hk & Ei). apply enum_in in Hk. destruct (marked F (IP q k)); [injection Ei as <- <-; destruct Hi|]. apply obind_some in Ei as (o & Eo' & Ei).
        destruct o as [x'|]; apply some_eq, pair_equal_spec in Ei as [-> ->]; cbn [fst] in Hi; [destruct Hi|]. destruct Hi as [Q|[]]. injection Q as ->. assert (x = p) by congruence. subst x. congruence.
      + exists pp, np. split; auto. destruct (forall2_in_l _ _ _ (j, p) E) as ([a b] & Hi & Ei); [now apply enum_in|]. apply marked_out in NF. rewrite NF, Eo in Ei. cbn [obind] in Ei. apply some_eq, pair_equal_spec in Ei as [-> ->]. apply in_concat. eexists. split; [apply in_map_iff; eexists; split; [|exact Hi]; reflexivity|]. now left.
  Qed.

  Lemma models_sub (V V' : Z * Z -> Prop) s : (forall c, V' c -> V c) -> models V s -> models V' s.
  Proof. intros H M c Hc. apply M. auto. Qed.
  Lemma rl_effects_ok exe : forall R, rint_ok n R -> (forall p pp np, In (p, (pp, np)) exe -> (p < length (p_prec P))%nat /\ length pp = n /\ length np = n) ->
    exists R', rl_effects P true exe R = Some R' /\ rint_ok n R' /\ (forall c, live R' c -> live R c) /\
      forall s p pp np, In (p, (pp, np)) exe -> clean p -> sound_for s pp np -> models (live R) s -> models (live R') (result P s p).
  Proof.
    induction exe as [|[p [pp np]] exe IH]; intros R O H; unfold rl_effects; cbn [ofold].
    - exists R. split; auto. split; auto. split; auto. intros s p pp np [].
    - destruct (H p pp np (or_introl eq_refl)) as (Lp & L1 & L2). destruct (effect_ok P WF p pp np R O Lp L1 L2) as (R1 & rm & -> & PR & SE). cbn [obind].
      destruct (IH R1 (proj1 PR)) as (R' & E & O' & LV & ST); [intros p' pp' np' H'; apply H; now right|]. exists R'. split; [exact E|]. split; auto.
      assert (L1' : forall c, live R1 c -> live R c) by (intros c; eapply progress_live; eauto). split; [auto|].
      intros s p' pp' np' [Q|Q] Cl Sd Ms.
      + apply pair_equal_spec in Q as [<- Q]. apply pair_equal_spec in Q as [<- <-]. apply (models_sub (live R1)); auto. apply SE; auto. apply (models_sub (live R)); auto.
      + apply (ST s p' pp' np'); auto. apply (models_sub (live R)); auto.
  Qed.

  (** The selected actions in the leafs. *)
  Definition kept (sel : list nat -> option nat) (F : flags) (ls : lfs) : Prop := forall q d i, In (q, d) ls -> sel q = Some i -> ~ In (IP q i) F.
  Lemma rl_leafs_ok F ls : prims_ok P ls -> forall R, rint_ok n R -> (forall c, In c (r_v R) -> live R c) -> exists its R', rl_leafs P true R F ls = Some (its, R') /\ rint_ok n R' /\ (forall c, In c (r_v R') -> live R' c) /\ (forall c, live R' c -> live R c) /\
    (forall i, In i its -> ~ In i F /\ exists q d j, In (q, d) ls /\ i = IP q j /\ (j < length (pn_prims d))%nat) /\
    forall sel s, models (live R) s -> executable P s (sel_plan sel ls) -> (forall p, In p (sel_plan sel ls) -> clean p) -> kept sel F ls ->
      (forall q i, In (IP q i) its -> sel q <> Some i) /\ forall p1 p2, sel_plan sel ls = p1 ++ p2 -> models (live R') (after P s p1).
  Proof.
    induction ls as [|[q d] r IH]; intros PO R O AL; cbn [rl_leafs].
    - exists [], R. split; auto. split; auto. split; auto. split; auto. split; [intros i []|]. intros sel s Ms _ _ _. split; [intros q i []|]. intros [|a p1] p2 E; [exact Ms|discriminate].
    - destruct (rl_prims_ok R q F (pn_prims d) O) as (its & exe & -> & HE & HI & HX); [intros p Hp; apply (PO q d p); auto; now left|]. cbn [obind].
      destruct (rl_effects_ok exe R O) as (R1 & -> & O1 & LV1 & ST1). { intros p pp np Hp. destruct (HE p pp np Hp) as (H1 & H2 & H3). split; auto. apply prim_prec. apply (PO q d p); auto. now left. } cbn [obind].
      destruct (reduce_ok P R1 O1) as (R2 & E2 & O2 & V2 & LV2). rewrite E2. cbn [obind].
      assert (AL2 : forall c, In c (r_v R2) -> live R2 c). { intros c Hc. apply LV2, (keep_live R1); [apply (ro_del _ _ O1)|]. now rewrite <- V2. }
      destruct (IH (fun q' d' p H => PO q' d' p (or_intror H)) R2 O2 AL2) as (rest & R' & -> & O' & AL' & LV' & HR & KR). cbn [obind].
      exists (its ++ rest), R'. split; auto. split; auto. split; auto. assert (LL : forall c, live R' c -> live R c) by (intros c Hc; apply LV1, LV2, LV'; exact Hc). split; [exact LL|]. split.
      { intros i Hi. apply in_app_or in Hi as [Hi|Hi].
        - apply HI in Hi as (j & p & Hj & -> & NF). split; auto. exists q, d, j. split; [now left|]. split; auto. apply nth_error_Some. congruence.
        - apply HR in Hi as (NF & q' & d' & j & H1 & H2). split; auto. exists q', d', j. split; [now right|auto]. }
      intros sel s Ms EX CL KP. assert (KP' : kept sel F r) by (intros q' d' i H; apply (KP q' d' i); now right).
      cbn [sel_plan flat_map] in EX, CL. fold (sel_plan sel r) in EX, CL. unfold sel_at in EX, CL. cbn [fst snd] in EX, CL.
      assert (EP : sel_plan sel ((q, d) :: r) = sel_at sel (q, d) ++ sel_plan sel r) by reflexivity. rewrite EP. unfold sel_at. cbn [fst snd].
      assert (IDLE : models (live R2) s) by (apply (models_sub (live R)); auto; intros c Hc; apply LV1, LV2; exact Hc).
      assert (SKIP : executable P s (sel_plan sel r) -> (forall p, In p (sel_plan sel r) -> clean p) -> (forall i p, sel q = Some i -> nth_error (pn_prims d) i = Some p -> False) ->
        (forall q0 i, In (IP q0 i) (its ++ rest) -> sel q0 <> Some i) /\ forall p1 p2, sel_plan sel r = p1 ++ p2 -> models (live R') (after P s p1)).
      { intros EX' CL' NO. destruct (KR sel s IDLE EX' CL' KP') as [K1 K2]. split; auto. intros q0 i0 Hi Es. apply in_app_or in Hi as [Hi|Hi]; [|exact (K1 q0 i0 Hi Es)]. apply HI in Hi as (j & p & Hj & Q & _). injection Q as -> ->. eauto. }
      destruct (sel q) as [i|] eqn:Es; [|apply SKIP; auto; discriminate]. destruct (nth_error (pn_prims d) i) as [p|] eqn:Ep; [|apply SKIP; auto; intros i' p' Q; injection Q as <-; congruence].
      cbn [app executable] in EX. destruct EX as [AP EX]. destruct (HX s i p Ep (KP q d i (or_introl eq_refl) Es) Ms AP) as (NI & pp & np & Hex & SD).
      assert (M2 : models (live R2) (result P s p)). { apply (models_sub (live R1)); [intros c; apply LV2|]. apply (ST1 s p pp np); auto. apply CL. now left. }
      destruct (KR sel (result P s p) M2 EX (fun p' H => CL p' (or_intror H)) KP') as [K1 K2]. split.
      + intros q0 i0 Hi Es0. apply in_app_or in Hi as [Hi|Hi]; [|exact (K1 q0 i0 Hi Es0)]. destruct (HI _ Hi) as (j & p' & Hj & Q & _). injection Q as -> ->. assert (j = i) by congruence. subst j. contradiction.
      + intros [|a p1] p2 Q; cbn [app] in Q; [apply (models_sub (live R)); auto|]. injection Q as <- Q. exact (K2 p1 p2 Q).
  Qed.

  Lemma insert_leaf_all bi v : bi_ok n bi -> fine n v -> forall al, bi_ok n al -> exists al', ofold (fun al '(a, b) => insert_leaf P bi al a b) v al = Some al' /\ bi_ok n al' /\
    forall x y, known n al' x y -> known n al x y \/ In (x, y) v \/ In (y, x) v.
  Proof.
    intros OB. induction v as [|[a b] v IH]; intros FV al OA; cbn [ofold]; [exists al; auto|]. destruct (FV a b (or_introl eq_refl)) as (Fa & Fb & _). apply lit_in_fact in Fa, Fb. unfold insert_leaf at 1. destruct (at_lit_some n bi a (bo_len _ _ OB) Fa) as (s & ->). cbn [obind].
    assert (G : exists al1, (if count s b then Some al else insert_invariant n al a b) = Some al1 /\ bi_ok n al1 /\ forall x y, known n al1 x y -> known n al x y \/ x = a /\ y = b \/ x = b /\ y = a).
    { destruct (count s b); [exists al; auto|]. destruct (insert_ok n al a b OA Fa Fb) as (al1 & E & O1 & K & _). exists al1. split; auto. split; auto. intros x y. apply K. }
    destruct G as (al1 & -> & O1 & K1). cbn [obind]. destruct (IH (fun x y H => FV x y (or_intror H)) al1 O1) as (al' & E & O' & K'). exists al'. split; auto. split; auto. intros x y Hk. destruct (K' x y Hk) as [H|[H|H]]; [|right; left; now right|right; right; now right].
    destruct (K1 x y H) as [X|[[-> ->]|[-> ->]]]; auto; [right; left; now left|right; right; now left].
  Qed.
  Lemma pairs_known tab (s : state) : bi_ok n tab -> pairs_hold n tab s <-> forall a b, known n tab a b -> clause2_holds s (a, b).
  Proof.
    intros O. split.
    - intros H a b (l & E & Hb). unfold at_lit in E. destruct (Z.ltb_spec (a + Z.of_nat n) 0); [discriminate|]. specialize (H _ l b E Hb). now replace (Z.of_nat (Z.to_nat (a + Z.of_nat n)) - Z.of_nat n) with a in H by lia.
    - intros H i l b E Hb. apply H. exists l. split; auto. unfold at_lit. destruct (Z.ltb_spec (Z.of_nat i - Z.of_nat n + Z.of_nat n) 0); [lia|]. now replace (Z.to_nat (Z.of_nat i - Z.of_nat n + Z.of_nat n)) with i by lia.
  Qed.
  Lemma empty_ok : bi_ok n (repeat [] (2 * n)).
  Proof.
    constructor; [apply repeat_length|intros s x Hs; apply repeat_spec in Hs; subst; intros []|intros s Hs; apply repeat_spec in Hs; subst; constructor|].
    intros a b (l & E & Hb). apply at_lit_range in E as (_ & E); [|apply repeat_length]. apply repeat_spec in E. subst. destruct Hb.
  Qed.
  Lemma empty_pairs (s : state) : pairs_hold n (repeat [] (2 * n)) s.
  Proof. intros i l b E Hb. apply nth_error_In, repeat_spec in E. subst. destruct Hb. Qed.

  (** States visited by a plan *)
  Definition along (plan : list nat) (Q : state -> Prop) : Prop := forall p1 p2, plan = p1 ++ p2 -> Q (after P (initial_state P) p1).

  Lemma filter_rint_ok bi ls F al : bi_ok n bi -> bi_ok n al -> prims_ok P ls -> exists its al', filter_leafs_rint P true bi ls F al = Some (mark F its, al', match its with [] => false | _ => true end) /\ bi_ok n al' /\
    (forall i, In i its -> ~ In i F /\ exists q d j, In (q, d) ls /\ i = IP q j /\ (j < length (pn_prims d))%nat) /\
    forall sel, executable P (initial_state P) (sel_plan sel ls) -> (forall p, In p (sel_plan sel ls) -> clean p) -> kept sel F ls -> along (sel_plan sel ls) (pairs_hold n al) ->
      kept sel (mark F its) ls /\ along (sel_plan sel ls) (pairs_hold n al').
  Proof.
    intros OB OA PO. unfold filter_leafs_rint, rint_initial. destruct (make_rint_ok n (initial_candidates P) (initial_fine P)) as (R0 & E0 & O0 & V0 & LV0). rewrite E0. cbn [obind].
    destruct (rl_leafs_ok F ls PO R0 O0) as (its & R & -> & O & AL & LV & HI & KP). { intros c Hc. apply LV0. now rewrite <- V0. } cbn [obind].
    destruct (insert_leaf_all bi (r_v R) OB (ro_fine _ _ O) al OA) as (al' & -> & OA' & K). cbn [obind]. exists its, al'. split; auto. split; auto. split; auto.
    intros sel EX CL KF AP. destruct (KP sel (initial_state P)) as [K1 K2]; auto. { intros [x y] Hc. apply LV0 in Hc. apply (initial_in P x y Hc). } split.
    - intros q d i Hq Hs X. apply mark_in in X as [X|X]; [exact (KF q d i Hq Hs X)|exact (K1 q i X Hs)].
    - intros p1 p2 Q. apply (pairs_known al' _ OA'). intros a b Hk. specialize (K2 p1 p2 Q). destruct (K a b Hk) as [H|[H|H]].
      + specialize (AP p1 p2 Q). rewrite (pairs_known al _ OA) in AP. auto.
      + apply (K2 (a, b)), AL, H.
      + specialize (K2 (b, a) (AL _ H)). unfold clause2_holds in *. cbn [fst snd] in *. tauto.
  Qed.
  Lemma rint_loop_ok bi ls : bi_ok n bi -> prims_ok P ls -> forall fuel F al, bi_ok n al -> (left_prims ls F < fuel)%nat -> exists F' al', rint_loop P true bi fuel ls F al = Some (F', al') /\ bi_ok n al' /\ incl F F' /\
    (forall i, In i F' -> In i F \/ exists q d j, In (q, d) ls /\ i = IP q j) /\
    forall sel, executable P (initial_state P) (sel_plan sel ls) -> (forall p, In p (sel_plan sel ls) -> clean p) -> kept sel F ls -> along (sel_plan sel ls) (pairs_hold n al) ->
      kept sel F' ls /\ along (sel_plan sel ls) (pairs_hold n al').
  Proof.
    intros OB PO. induction fuel as [|fuel IH]; intros F al OA L; [lia|]. cbn [rint_loop]. destruct (filter_rint_ok bi ls F al OB OA PO) as (its & al1 & -> & O1 & HI & KP). cbn [obind]. destruct its as [|i its].
    - exists (mark F []), al1. split; auto. split; auto. split; [intros x Hx; apply mark_in; auto|]. split; [intros x Hx; apply mark_in in Hx as [Hx|[]]; auto|exact KP].
    - destruct (IH (mark F (i :: its)) al1 O1) as (F' & al' & E & O' & I1 & I2 & K').
      + assert (LL : (left_prims ls (mark F (i :: its)) < left_prims ls F)%nat); [|lia]. destruct (HI i (or_introl eq_refl)) as (NF & q & d & j & Hq & Hij & Hj). unfold left_prims. apply (filter_less _ _ _ i).
        * intros y Hy. apply negb_true_iff in Hy. apply negb_true_iff. apply marked_out. apply marked_out in Hy. intros X. apply Hy. apply mark_in. auto.
        * apply in_flat_map. exists (q, d). split; auto. rewrite Hij. apply in_map, in_seq. lia.
        * apply negb_true_iff. now apply marked_out.
        * apply negb_false_iff. apply marked_in, mark_in. right. now left.
      + exists F', al'. split; [exact E|]. split; auto. split; [intros x Hx; apply I1, mark_in; auto|]. split.
        * intros x Hx. destruct (I2 x Hx) as [X|X]; auto. apply mark_in in X as [X|X]; auto. destruct (HI x X) as (_ & q & d & j & Hq & Hx' & _). right. exists q, d, j. auto.
        * intros sel EX CL KF AP. destruct (KP sel EX CL KF AP) as [K1 K2]. auto.
  Qed.
End Prune.

(** ** All pruning of one depth *)
Section All.
  Context {KI : kind}.
  Variables (P : problem) (T : pdt).
  Hypothesis WF : wf_problem P.
  Hypothesis TO : tree_ok P T.
  Notation n := (p_nfacts P).
  Notation ls := (leafs T []).
  Notation at_node := (at_node T).

  Theorem prune_full_ok mode vec bi : bi_ok n bi -> (mode = PH2 -> vec = true) -> exists F al, prune_full P mode vec bi T = Some (F, al) /\ bi_ok n al /\
    (forall q t, at_node q t -> closed P F q t) /\ (forall q d a, at_node q (PNode d []) -> (a < length (pn_abs d))%nat -> In (IA q a) F) /\
    forall U sel, supports P T U -> (forall q d a, at_node q (PNode d []) -> ~ U (IA q a)) -> (forall q d i, at_node q (PNode d []) -> (U (IP q i) <-> sel q = Some i)) ->
      executable P (initial_state P) (sel_plan sel ls) -> (mode = PH2 -> forall p, In p (sel_plan sel ls) -> clean P p) -> avoids U F /\ along P (sel_plan sel ls) (pairs_hold n al).
  Proof.
    intros OB VE. unfold prune_full. fold (first_marks T). destruct (all_ok P T TO (first_marks T)) as (F1 & E1 & I1 & C1).
    { intros q t A K. apply (closed_stable P [] (first_marks T)); [intros i []| |now apply (closed_nil P T TO)]. intros i Hi X. exfalso. apply first_in in X as (q' & d & a & A' & _ & ->). cbn in Hi. subst q'. assert (Z := at_fun T q _ _ A A'). subst t. now apply K. }
    rewrite E1. cbn [obind]. set (fuel := S (length (flat_map (fun '(_, d) => pn_prims d) ls))).
    assert (PO := leaf_prims_ok P T TO).
    assert (S2 : exists F2, (match mode with PNone => Some F1 | _ => ff_loop P fuel ls F1 end) = Some F2 /\ incl F1 F2 /\ (forall i, In i F2 -> In i F1 \/ exists q d j, In (q, d) ls /\ i = IP q j) /\
      forall sel, executable P (initial_state P) (sel_plan sel ls) -> kept sel F1 ls -> kept sel F2 ls).
    { destruct (ff_loop_ok P WF ls PO fuel F1) as (F2 & E2 & I2 & N2); [assert (Z := left_prims_le ls F1); unfold fuel; lia|].
      destruct mode; [exists F1; split; auto; split; [apply incl_refl|auto]| |]; exists F2; (split; [exact E2|split; [exact I2|split; [exact N2|]]]); intros sel EX KF; exact (ff_loop_keep P WF ls sel PO EX fuel F1 F2 E2 KF). }
    destruct S2 as (F2 & E2 & I2 & N2 & K2). rewrite E2. cbn [obind].
    assert (S3 : exists F3 al, (match mode with PH2 => rint_loop P vec bi fuel ls F2 (repeat [] (2 * n)) | _ => Some (F2, repeat [] (2 * n)) end) = Some (F3, al) /\ bi_ok n al /\ incl F2 F3 /\ (forall i, In i F3 -> In i F2 \/ exists q d j, In (q, d) ls /\ i = IP q j) /\
      forall sel, executable P (initial_state P) (sel_plan sel ls) -> (mode = PH2 -> forall p, In p (sel_plan sel ls) -> clean P p) -> kept sel F2 ls -> kept sel F3 ls /\ along P (sel_plan sel ls) (pairs_hold n al)).
    { assert (EP : forall plan, along P plan (pairs_hold n (repeat [] (2 * n)))) by (intros plan p1 p2 _; apply empty_pairs).
      assert (ID : exists F3 al, Some (F2, repeat [] (2 * n)%nat) = Some (F3, al) /\ bi_ok n al /\ incl F2 F3 /\ (forall i, In i F3 -> In i F2 \/ exists q d j, In (q, d) ls /\ i = IP q j) /\
        forall sel, executable P (initial_state P) (sel_plan sel ls) -> (mode = PH2 -> forall p, In p (sel_plan sel ls) -> clean P p) -> kept sel F2 ls -> kept sel F3 ls /\ along P (sel_plan sel ls) (pairs_hold n al)).
      { exists F2, (repeat [] (2 * n)%nat). split; auto. split; [apply empty_ok|]. split; [apply incl_refl|]. auto. }
      destruct mode; [exact ID|exact ID|]. clear ID. rewrite (VE eq_refl). destruct (rint_loop_ok P WF bi ls OB PO fuel F2 (repeat [] (2 * n)%nat) (empty_ok P)) as (F3 & al & E3 & O3 & I3 & N3 & K3); [assert (Z := left_prims_le ls F2); unfold fuel; lia|].
      exists F3, al. split; [exact E3|]. split; [exact O3|]. split; [exact I3|]. split; [exact N3|]. intros sel EX CL KF. apply K3; auto. }
    destruct S3 as (F3 & al & E3 & O3 & I3 & N3 & K3). rewrite E3. cbn [obind]. destruct (all_ok P T TO F3) as (F & E & I & Cl).
    { intros q t A K. apply (closed_stable P F1 F3); auto; [exact (incl_tran I2 I3)|]. intros i Hi X. destruct (N3 i X) as [Y|(q' & d & j & Hq & ->)]; [destruct (N2 i Y) as [Y'|(q' & d & j & Hq & ->)]; [exact Y'|]|]; exfalso; cbn in Hi; subst q'; apply leafs_at in Hq; assert (Z := at_fun T q _ _ A Hq); subst t; now apply K. }
    rewrite E. cbn [obind]. exists F, al. split; auto. split; auto. split; auto. split; [intros q d a A L; apply I, I3, I2, I1, first_in; exists q, d, a; auto|].
    intros U sel SU NA SE EX CL.
    assert (A1 : avoids U F1). { eapply all_avoids; eauto. intros i Hi. apply first_in in Hi as (q & d & a & A & _ & ->). eapply NA; eauto. }
    assert (KA : forall F, avoids U F -> kept sel F ls) by (intros F' A q d i Hq Hs X; apply (A _ X); apply (SE q d i); [now apply leafs_at|exact Hs]).
    assert (AK : forall G G', avoids U G -> (forall i, In i G' -> In i G \/ exists q d j, In (q, d) ls /\ i = IP q j) -> kept sel G' ls -> avoids U G').
    { intros G G' A N K i Hi HU. destruct (N i Hi) as [X|(q & d & j & Hq & ->)]; [exact (A i X HU)|]. apply (K q d j Hq); auto. apply (SE q d j); [now apply leafs_at|exact HU]. }
    assert (A2 : avoids U F2) by (apply (AK F1 F2 A1 N2), K2; auto). destruct (K3 sel EX CL (KA F2 A2)) as [KK AL]. assert (A3 : avoids U F3) by (apply (AK F2 F3 A2 N3 KK)). split; auto. eapply all_avoids; eauto.
  Qed.
End All.
