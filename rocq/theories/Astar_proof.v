(** Soundness, completeness and optimality of the weighted A* search loop. *)
From Coq Require Import ZArith Relations.
From Verif Require Import Base Rel Htn_model Htn_spec Htn_sem Htn_iso Htn_rep Htn_proof Htn_history Htn_search Htn_hist.
From Verif Require Import Fringe_model Fringe_proof Fringe_thm Astar_model.

Lemma eval_hs_length hs : forall prev w n hv, eval_hs hs prev w n = Some hv -> length hv = length hs.
Proof.
  induction hs as [|[a f] r IH]; intros prev w n hv H; cbn [eval_hs] in H; [injection H as <-; auto|].
  apply obind_some in H as (v & _ & H). apply obind_some in H as (vs & E & H). injection H as <-. cbn. f_equal. eauto.
Qed.

(** A missing value comes from a heuristic that reports a dead end. *)
Lemma eval_hs_none hs : forall prev w n, eval_hs hs prev w n = None -> exists a f, In (a, f) hs /\ f w n = None.
Proof.
  induction hs as [|[a f] r IH]; intros prev w n H; cbn [eval_hs] in H; [discriminate|].
  destruct (find _ prev) as [p|].
  - cbn [obind] in H. destruct (eval_hs r (prev ++ [(a, snd p)]) w n) eqn:ER; [discriminate|]. destruct (IH _ _ _ ER) as (b & g & I & Q). exists b, g. split; [right|]; auto.
  - destruct (f w n) as [v|] eqn:EF; [|exists a, f; split; [left|]; auto]. cbn [obind] in H.
    destruct (eval_hs r (prev ++ [(a, v)]) w n) eqn:ER; [discriminate|]. destruct (IH _ _ _ ER) as (b & g & I & Q). exists b, g. split; [right|]; auto.
Qed.

Lemma eval_hs_first hs w n hv h0 : eval_hs hs [] w n = Some hv -> get hv 0 = Some h0 ->
  exists a f r, hs = (a, f) :: r /\ f w n = Some h0.
Proof.
  destruct hs as [|[a f] r]; cbn [eval_hs find]; intros H G; [injection H as <-; discriminate|].
  apply obind_some in H as (v & E & H). apply obind_some in H as (vs & _ & H). injection H as <-. cbn in G. injection G as <-. eauto 6.
Qed.

Section Astar.
  Context {V : Type}.
  Variables (P : problem) (C : config) (E : aenv V).
  Hypothesis WP : wf_problem P.
  Hypothesis HP : forall l, Permutation l (c_perm C l).
  Hypothesis PQ : pq_ok (length (a_hs E)) (a_push E) (a_pop E).

  Let s0 := initial_state P.
  Let tn0 := initial_network P.
  Let push_perm := proj1 PQ.

  (** [Compl]: completeness is wanted, [Opt]: optimality is wanted. *)
  Variables Compl Opt : Prop.
  (** What the contracts may assume of a node; every node of a history has it. *)
  Variable J : world -> node -> Prop.
  Hypothesis J_hist : forall w l n, history P C w l -> In n l -> J w n.
  (** The possible values of the first heuristic stored for a node. *)
  Variable KF : world -> node -> Z -> Prop.
  Hypothesis KF_root : forall w n, init_node P = Some (w, n) -> KF w n 0%Z.
  Hypothesis KF_new : forall w l n a f r h, history P C w l -> In n l -> a_hs E = (a, f) :: r -> f w n = Some h -> KF w n h.
  Hypothesis KF_ext : forall w w' n h, extends w w' -> KF w n h -> KF w' n h.

  Definition fval (n : node) (h0 : Z) : Z := f_value (a_gval E) (a_weight E) h0 (n_depth n) (n_cost n) (n_mixed n).
  Definition FV (w : world) (n : node) (fo : option Z) : Prop :=
    match fo with None => a_sub E = true | Some f => a_sub E = false /\ exists h0, KF w n h0 /\ f = fval n h0 end.

  Notation log := (list (state * tnet * nat)).
  Variable VI : V -> log -> Prop.
  Hypothesis vis_new : forall w v n s tn pi fo L v', J w n -> wf_heap P (w_heap w) -> Rep P (w_heap w) n s tn pi -> FV w n fo -> VI v L ->
    a_vis E w v n fo = (true, v') -> VI v' ((s, tn, n_cost n) :: L).
  Hypothesis vis_old : forall w v n s tn pi fo L v', J w n -> wf_heap P (w_heap w) -> Rep P (w_heap w) n s tn pi -> FV w n fo -> VI v L ->
    a_vis E w v n fo = (false, v') -> VI v' L /\ (Compl -> exists s2 tn2 g2, In (s2, tn2, g2) L /\ same_node s tn s2 tn2 /\ (Opt -> g2 <= n_cost n)).
  Hypothesis dead_ok : Compl -> forall w n s tn pi a f, J w n -> wf_heap P (w_heap w) -> Rep P (w_heap w) n s tn pi ->
    In (a, f) (a_hs E) -> f w n = None -> forall plan, ~ solves P s tn plan.
  Hypothesis opt_sub : Opt -> a_sub E = false.
  Hypothesis opt_gval : Opt -> a_gval E = GAction.
  Hypothesis opt_weight : Opt -> (0 <= a_weight E)%Z.
  Hypothesis adm : Opt -> forall w n h s tn pi, wf_heap P (w_heap w) -> NInv P w n s tn pi -> KF w n h ->
    (0 <= h)%Z /\ forall plan, solves P s tn plan -> (h <= Z.of_nat (plan_cost P plan))%Z.

  Lemma dead_ok' w n s tn pi : Compl -> J w n -> wf_heap P (w_heap w) -> Rep P (w_heap w) n s tn pi ->
    eval_hs (a_hs E) [] w n = None -> forall k plan, ~ solvesk P s tn k plan.
  Proof.
    intros HC HJ W R D k plan HS. apply eval_hs_none in D as (a & f & I & D). eapply (dead_ok HC w n s tn pi a f HJ W R I D plan).
    apply solves_solvesk; eauto using wf_acyclic. apply (r_wf _ _ _ _ _ _ R).
  Qed.

  Definition NotGoal (n : node) : Prop := a_sub E = true -> isGoal P n <> Some true.
  (** The entries of the fringe. *)
  Record EInv (w : world) (e : entry node) : Prop := {
    ei_rep : exists s tn pi, NInv P w (en_node e) s tn pi;
    ei_goal : NotGoal (en_node e);
    ei_len : length (en_h e) = length (a_hs E);
    ei_f : exists h0, KF w (en_node e) h0 /\ en_f e = fval (en_node e) h0 }.

  Lemma EInv_ext w w' e : wf_heap P (w_heap w) -> extends w w' -> EInv w e -> EInv w' e.
  Proof.
    intros W X [(s & tn & pi & N) B D (h0 & K & F)]. split; auto.
    - destruct X as (x & H). exists s, tn, pi. eapply NInv_ext; eauto.
    - exists h0. split; auto. eapply KF_ext; eauto.
  Qed.

  Definition SInv (st : astate V) : Prop :=
    wf_heap P (w_heap (t_world st)) /\ forall e, In e (t_fringe st) -> EInv (t_world st) e.
  Definition GInv (st : astate V) (L : log) : Prop :=
    SInv st /\ VI (t_vis st) L /\ (forall s tn g, In (s, tn, g) L -> wf_tn tn).
  Definition HSt (st : astate V) (n : node) : Prop :=
    exists l, history P C (t_world st) l /\ incl (map en_node (t_fringe st)) l /\ In n l.

  (** A fringe node solvable within [k] decompositions and actions whose total cost is at most [c]. *)
  Definition Wit (st : astate V) (k c : nat) : Prop :=
    exists e s tn pi k' plan, In e (t_fringe st) /\ NInv P (t_world st) (en_node e) s tn pi /\ k' <= k /\ solvesk P s tn k' plan /\
      (Opt -> n_cost (en_node e) + plan_cost P plan <= c).
  Definition Cov (st : astate V) (L : log) (k c : nat) : Prop :=
    Wit st k c \/ exists s tn g k' plan, In (s, tn, g) L /\ k' <= k /\ solvesk P s tn k' plan /\ (Opt -> g + plan_cost P plan <= c).

  Record Ext (st : astate V) (L : log) (st' : astate V) (L' : log) : Prop := {
    ex_inv : GInv st' L';
    ex_heap : extends (t_world st) (t_world st');
    ex_fr : forall e, In e (t_fringe st) -> In e (t_fringe st');
    ex_L : forall p, In p L -> In p L';
    ex_new : forall s tn g, In (s, tn, g) L' -> In (s, tn, g) L \/
               (a_sub E = true /\ (Compl -> forall k plan, solvesk P s tn k plan -> Wit st' k (g + plan_cost P plan))) }.

  Lemma Wit_mono st st' L k c : GInv st L -> extends (t_world st) (t_world st') ->
    (forall e, In e (t_fringe st) -> In e (t_fringe st')) -> Wit st k c -> Wit st' k c.
  Proof.
    intros ((W & _) & _) (e & H) F (n & s & tn & pi & k' & plan & Hn & N & Hk & HS & HC).
    exists n, s, tn, pi, k', plan. split; auto. split; [eapply NInv_ext; eauto|]. auto.
  Qed.
  Lemma Wit_le st k k' c c' : k <= k' -> (Opt -> c <= c') -> Wit st k c -> Wit st k' c'.
  Proof.
    intros L0 L1 (q & sq & tq & pq & kq & plq & A1 & A2 & A3 & A4 & A5).
    exists q, sq, tq, pq, kq, plq. split; [auto|]. split; [auto|]. split; [lia|split; [auto|]]. intros O. specialize (L1 O). specialize (A5 O). lia.
  Qed.
  Lemma Cov_le st L k k' c c' : k <= k' -> (Opt -> c <= c') -> Cov st L k c -> Cov st L k' c'.
  Proof.
    intros L0 L1 [Wt|(s & tn & g & kq & plan & A1 & A2 & A3 & A4)]; [left; eapply Wit_le; eauto|right].
    exists s, tn, g, kq, plan. split; [auto|split; [lia|split; [auto|]]]. intros O. specialize (L1 O). specialize (A4 O). lia.
  Qed.
  Lemma Cov_mono st L st' L' k c : GInv st L -> Ext st L st' L' -> Cov st L k c -> Cov st' L' k c.
  Proof.
    intros G X [Wt|(s & tn & g & k' & plan & Hin & Hk & HS)].
    - left. eapply Wit_mono; eauto; apply X.
    - right. exists s, tn, g, k', plan. split; auto. now apply X.
  Qed.
  Lemma Ext_refl st L : GInv st L -> Ext st L st L.
  Proof. intros G. split; auto using extends_refl. Qed.
  Lemma Ext_trans a La b Lb c Lc : Ext a La b Lb -> Ext b Lb c Lc -> Ext a La c Lc.
  Proof.
    intros X Y. split.
    - apply Y.
    - eapply extends_trans; [apply X|apply Y].
    - intros n Hn. apply Y, X, Hn.
    - intros p Hp. apply Y, X, Hp.
    - intros s tn g H. destruct (ex_new _ _ _ _ Y s tn g H) as [H1|H1]; [|auto].
      destruct (ex_new _ _ _ _ X s tn g H1) as [H2|[H2 H3]]; [auto|]. right. split; auto.
      intros HC k plan HS. eapply Wit_mono; [apply X|apply Y|apply Y|eauto].
  Qed.
  Lemma Ext_same st L w v' rn : GInv st L -> extends (t_world st) w -> wf_heap P (w_heap w) -> VI v' L ->
    Ext st L {| t_world := w; t_fringe := t_fringe st; t_vis := v'; t_rnd := rn |} L.
  Proof.
    intros ((W & F) & HV & HL) X Ww HV'. split; simpl; auto.
    split; [|split; auto]. split; simpl; auto. intros n Hn. apply (EInv_ext (t_world st)); auto.
  Qed.

  (** What [push_entry] does. *)
  Lemma push_ok st w v n hv st2 : push_entry E st w v n hv = Some st2 -> exists e h0,
    get hv 0 = Some h0 /\ en_node e = n /\ en_h e = hv /\ en_f e = fval n h0 /\
    t_world st2 = w /\ t_vis st2 = v /\ (forall q, In q (t_fringe st2) <-> q = e \/ In q (t_fringe st)).
  Proof.
    unfold push_entry. intros H. apply obind_some in H as (h0 & G & H). injection H as <-. exists {| en_node := n; en_f := fval n h0; en_h := hv; en_rand := a_rnd E (t_rnd st) |}, h0. split; [exact G|].
    do 5 (split; [reflexivity|]). intros q. cbn [t_fringe]. rewrite (Permutation_in' eq_refl (push_perm _ (t_fringe st))). cbn [In]. split; intros [Q|Q]; auto.
  Qed.

  Lemma treat_ok st L w n n2 s tn pi r l : history P C w l -> incl (map en_node (t_fringe st)) l -> In n l -> In n2 l ->
    GInv st L -> extends (t_world st) w -> wf_heap P (w_heap w) -> NInv P w n2 s tn pi ->
    a_treat P E st w n2 = r ->
    match r with
    | AStop w' n' => w' = w /\ n' = n2 /\ isGoal P n2 = Some true /\ a_sub E = true
    | ACont st' => exists L', Ext st L st' L' /\ t_world st' = w /\ HSt st' n /\
                    (Compl -> n_reach n2 = true -> forall k plan, solvesk P s tn k plan -> Cov st' L' k (n_cost n2 + plan_cost P plan))
    | ACrash => True
    end.
  Proof.
    intros Hh IN Hn Hn2 ((Wst & Fst) & HV & HL) X W N H. unfold a_treat in H.
    pose proof (J_hist _ _ _ Hh Hn2) as HJ.
    assert (FE : forall n, In n (t_fringe st) -> EInv w n) by (intros; apply (EInv_ext (t_world st)); auto).
    pose proof N as (R & _).
    assert (G0 : GInv st L) by (split; [split; auto|split; auto]).
    destruct (n_reach n2) eqn:Rc.
    2:{ subst r. exists L. split; [|split; [auto|split; [exists l; auto|intros _; discriminate]]]. apply Ext_same; auto. }
    destruct (if a_sub E then a_vis E w (t_vis st) n2 None else (true, t_vis st)) as [ok v'] eqn:EV.
    assert (VC : (ok = true /\ exists L', VI v' L' /\ (forall p, In p L -> In p L') /\ (forall s tn g, In (s, tn, g) L' -> wf_tn tn) /\
                    (forall p, In p L' -> In p L \/ (a_sub E = true /\ p = (s, tn, n_cost n2)))) \/
                 (ok = false /\ VI v' L /\ (Compl -> exists s2 tn2 g2, In (s2, tn2, g2) L /\ same_node s tn s2 tn2 /\ (Opt -> g2 <= n_cost n2)))).
    { destruct (a_sub E) eqn:SB.
      - assert (FN : FV w n2 None) by exact SB.
        destruct ok.
        + left. split; auto. exists ((s, tn, n_cost n2) :: L). split; [eapply vis_new; eauto|]. split; [intros; simpl; auto|].
          split.
          * intros a b c [[= <- <- <-]|Hab]; [apply (r_wf _ _ _ _ _ _ R)|eauto].
          * intros p [<-|Hp]; auto.
        + right. split; auto. eapply vis_old; eauto.
      - injection EV as <- <-. left. split; auto. exists L. split; [auto|]. split; [auto|]. split; eauto. }
    destruct VC as [(-> & L' & VI' & LL & LW & LN)|(-> & VI' & SM)].
    - destruct (eval_hs (a_hs E) [] w n2) as [hv|] eqn:DD.
      2:{ subst r. exists L'. assert (DE := fun HC => dead_ok' w n2 s tn pi HC HJ W R DD).
        split; [|split; [auto|split; [exists l; auto|]]].
        * split; simpl; auto.
          -- split; [split; auto|]. auto.
          -- intros a b c Hab. destruct (LN _ Hab) as [|[So [= -> -> ->]]]; auto. right. split; auto.
             intros HC k plan HS. exfalso. eapply DE; eauto.
        * intros HC _ k plan HS. exfalso. eapply DE; eauto. }
      destruct (if a_sub E then isGoal P n2 else Some false) as [[|]|] eqn:GG.
      + destruct (a_sub E); [|discriminate]. subst r. auto.
      + destruct (push_entry E st w v' n2 hv) as [st2|] eqn:EP; [|subst r; exact I]. subst r. exists L'.
        destruct (push_ok _ _ _ _ _ _ EP) as (e & h0 & Gh & En & Eh & Ef & Ew & Ev & INf).
        assert (EI : EInv w e).
        { split; rewrite ?En; eauto.
          - intros So. rewrite So in GG. congruence.
          - rewrite Eh. apply (eval_hs_length _ _ _ _ _ DD).
          - exists h0. split; auto. destruct (eval_hs_first _ _ _ _ _ DD Gh) as (a & f & r & Q1 & Q2). eapply KF_new; eauto. }
        assert (WT : forall k plan, solvesk P s tn k plan -> Wit st2 k (n_cost n2 + plan_cost P plan)).
        { intros k plan HS. exists e, s, tn, pi, k, plan. rewrite INf, Ew, En. auto. }
        split; [|split; [auto|split]].
        * split; rewrite ?Ew, ?Ev; auto.
          -- split; [split|split]; rewrite ?Ew, ?Ev; auto. intros q Hq. apply INf in Hq as [->|Hq]; auto.
          -- intros q Hq. apply INf. auto.
          -- intros a b c Hab. destruct (LN _ Hab) as [|[So [= -> -> ->]]]; auto.
        * exists l. rewrite Ew. split; auto. split; auto. intros q Hq. apply in_map_iff in Hq as (y & <- & Hy). apply INf in Hy as [->|Hy]; [rewrite En; auto|apply IN; now apply in_map].
        * intros _ _ k plan HS. left. eauto.
      + subst r. exact I.
    - subst r. exists L. split; [|split; [auto|split; [exists l; auto|]]].
      + apply Ext_same; auto.
      + intros HC _ k plan HS. destruct (SM HC) as (s2 & tn2 & g2 & Hin & SM2 & GL). right. exists s2, tn2, g2, k, plan. split; auto. split; auto. split.
        * eapply solvesk_iso; [apply wf_acyclic; auto| | |exact SM2|exact HS]; [apply (r_wf _ _ _ _ _ _ R)|eauto].
        * intros O. specialize (GL O). lia.
  Qed.

  Lemma actions_ok fuel n s tn pi l i st L r : n_abs n = [] -> HSt st n ->
    GInv st L -> NInv P (t_world st) n s tn pi ->
    (forall j, get l j = get (n_prim n) (i + j)) ->
    a_actions P C E fuel st n i l = r ->
    match r with
    | AStop w' n' => isGoal P n' = Some true /\ (exists s' tn' pi', NInv P w' n' s' tn' pi') /\ a_sub E = true
    | ACont st' => exists L', Ext st L st' L' /\ HSt st' n /\
         (Compl -> forall x ps, In x l -> get (w_heap (t_world st)) x = Some ps -> applicable P s (ps_task ps) ->
            forall k plan, solvesk P (result P s (ps_task ps)) (minus tn (pi x)) k plan -> Cov st' L' k (n_cost n + plan_cost P (ps_task ps :: plan)))
    | ACrash => True
    end.
  Proof.
    intros NAn. revert i st L r. induction l as [|x l IH]; intros i st L r HS0 G N HL H; cbn [a_actions] in H.
    - subst r. exists L. split; [now apply Ext_refl|]. split; auto. intros HC x ps [].
    - destruct (tk <- task_of (w_heap (t_world st)) x;; isApplicable P (n_state n) tk) as [b|] eqn:EA; [|subst r; exact I].
      apply obind_some in EA as (tk & ET & EA). unfold task_of in ET. apply obind_some in ET as (ps & Gp & [= <-]).
      pose proof N as (R & _).
      pose proof (isApplicable_spec _ _ _ _ s EA (r_state _ _ _ _ _ _ R)) as AP.
      assert (HL' : forall j, get l j = get (n_prim n) (S i + j)).
      { intros j. replace (S i + j) with (i + S j) by lia. rewrite <- (HL (S j)). reflexivity. }
      destruct b.
      + destruct (apply P C fuel (t_world st) n i) as [(w1 & n2)|] eqn:EP; [|subst r; exact I].
        assert (Gx : get (n_prim n) i = Some x).
        { specialize (HL 0). rewrite Nat.add_0_r in HL. rewrite <- HL. reflexivity. }
        pose proof G as ((Wst & _) & _).
        destruct (proj1 (apply_ok P C WP HP fuel) (t_world st) n i w1 n2 s tn pi x ps Wst R Gx Gp (proj1 AP eq_refl) EP)
          as (s' & tn' & acts & Hh & R' & PL & CO & SO & SN & CM & _).
        assert (Min : minimal tn (pi x)).
        { apply (r_min _ _ _ _ _ _ R). unfold heads. apply in_or_app. right. eapply nth_error_In; exact Gx. }
        assert (Lab : t_lab tn (pi x) = ps_task ps).
        { eapply (r_lab _ _ _ _ _ _ R); eauto. apply live_head. unfold heads. apply in_or_app. right. eapply nth_error_In; exact Gx. }
        assert (Prm : primitive P (ps_task ps)).
        { eapply (r_prim _ _ _ _ _ _ R); eauto. eapply nth_error_In; exact Gx. }
        assert (N2 : NInv P w1 n2 s' tn' pi).
        { eapply NInv_succ; eauto. intros k plan HS. destruct (SN _ _ HS) as (k' & HS').
          exists (S k'). rewrite <- Lab in *. simpl. apply solvesk_act; auto; [apply wf_acyclic; auto|apply (r_wf _ _ _ _ _ _ R)|now apply AP]. }
        assert (X1 : extends (t_world st) w1) by (exists []; now rewrite app_nil_r).
        assert (W1 : wf_heap P (w_heap w1)) by (now rewrite Hh).
        destruct HS0 as (lh & Hh0 & INh & Hnh).
        assert (HH : history P C w1 (n2 :: lh)).
        { eapply h_apply; eauto. unfold task_of. rewrite Gp. reflexivity. }
        pose proof (treat_ok st L w1 n n2 s' tn' pi _ (n2 :: lh) HH (fun q Hq => or_intror (INh q Hq)) (or_intror Hnh) (or_introl eq_refl) G X1 W1 N2 eq_refl) as T.
        destruct (a_treat P E st w1 n2) as [wq nq|st1|] eqn:ETR; [|clear ETR|].
        * subst r. destruct T as (-> & -> & GL & SB). split; auto. split; eauto.
        * destruct T as (L1 & EX1 & WS1 & TH & CV1).
          assert (N' : NInv P (t_world st1) n s tn pi).
          { destruct X1 as (e & X1). rewrite WS1. apply (NInv_ext P (t_world st) w1 e); auto. }
          specialize (IH (S i) st1 L1 r TH (ex_inv _ _ _ _ EX1) N' HL' H).
          destruct r as [w' n'|st'|]; auto.
          destruct IH as (L' & EX2 & HS2 & CV2). exists L'. split; [eapply Ext_trans; eauto|]. split; auto.
          intros HC y py Hy Gy Ay k plan HS. destruct Hy as [<-|Hy].
          -- rewrite Gp in Gy. injection Gy as <-.
             destruct (CM _ _ HS) as (Rc & k' & plan' & Lk & PMp & HS').
             eapply Cov_mono; [apply EX1|exact EX2|].
             eapply Cov_le; [exact Lk| |exact (CV1 HC Rc _ _ HS')].
             intros _. rewrite CO. apply (plan_cost_perm P) in PMp. rewrite plan_cost_app in PMp.
             assert (CC : forall a p, plan_cost P (a :: p) = cost_of P a + plan_cost P p) by reflexivity. rewrite !CC. lia.
          -- eapply CV2; eauto. rewrite WS1, Hh. exact Gy.
        * subst r. exact I.
      + specialize (IH (S i) st L r HS0 G N HL' H). destruct r as [w' n'|st'|]; auto.
        destruct IH as (L' & EX2 & HS2 & CV2). exists L'. split; auto. split; auto.
        intros HC y py [<-|Hy] Gy Ay; [|eauto]. exfalso. rewrite Gp in Gy. injection Gy as <-.
        apply AP in Ay. discriminate.
  Qed.

  Lemma methods_ok fuel n s tn pi step x ps ms st L r : HSt st n -> incl ms (task_to_methods P (ps_task ps)) ->
    GInv st L -> NInv P (t_world st) n s tn pi ->
    get (n_abs n) step = Some x -> get (w_heap (t_world st)) x = Some ps ->
    (forall mi, In mi ms -> exists m, nth_error (p_methods P) mi = Some m /\ ps_task ps = m_task m) ->
    a_methods P C E fuel st n step ms = r ->
    match r with
    | AStop w' n' => isGoal P n' = Some true /\ (exists s' tn' pi', NInv P w' n' s' tn' pi') /\ a_sub E = true
    | ACont st' => exists L', Ext st L st' L' /\ HSt st' n /\
         (Compl -> forall mi m, In mi ms -> nth_error (p_methods P) mi = Some m ->
            forall c, decomposes P tn (pi x) m c ->
            forall k plan, solvesk P s c k plan -> Cov st' L' k (n_cost n + plan_cost P plan))
    | ACrash => True
    end.
  Proof.
    revert st L r. induction ms as [|mi ms IH]; intros st L r HS0 IM G N Gx Gp HM H; cbn [a_methods] in H.
    - subst r. exists L. split; [now apply Ext_refl|]. split; auto. intros HC mi m [].
    - destruct (decompose P C fuel (t_world st) n step mi) as [(w1 & n2)|] eqn:EP; [|subst r; exact I].
      pose proof N as (R & _). pose proof G as ((Wst & _) & _).
      destruct (HM mi) as (m & Gm & Tm); [simpl; auto|].
      destruct (decompose_ok P C WP HP fuel (t_world st) n step mi w1 n2 s tn pi x ps m Wst R Gx Gp Gm Tm EP)
        as (e & pi' & s' & tn' & acts & Hh & W1 & R' & PL & CO & SO & SN & CM).
      assert (N2 : NInv P w1 n2 s' tn' pi') by (eapply NInv_succ; eauto).
      assert (X1 : extends (t_world st) w1) by (exists e; exact Hh).
      destruct HS0 as (lh & Hh0 & INh & Hnh).
      assert (HH : history P C w1 (n2 :: lh)).
      { eapply h_decompose; eauto; [unfold task_of; rewrite Gp; reflexivity|apply IM; left; auto]. }
      pose proof (treat_ok st L w1 n n2 s' tn' pi' _ (n2 :: lh) HH (fun q Hq => or_intror (INh q Hq)) (or_intror Hnh) (or_introl eq_refl) G X1 W1 N2 eq_refl) as T.
      destruct (a_treat P E st w1 n2) as [wq nq|st1|] eqn:ETR; [|clear ETR|].
      + subst r. destruct T as (-> & -> & GL & SB). split; auto. split; eauto.
      + destruct T as (L1 & EX1 & WS1 & TH & CV1).
        assert (N' : NInv P (t_world st1) n s tn pi) by (rewrite WS1; apply (NInv_ext P (t_world st) w1 e); auto).
        assert (Gp' : get (w_heap (t_world st1)) x = Some ps).
        { rewrite WS1, Hh. rewrite get_app_l; auto. eapply get_lt; eauto. }
        assert (HM' : forall mi, In mi ms -> exists m, nth_error (p_methods P) mi = Some m /\ ps_task ps = m_task m).
        { intros q Hq. apply HM. simpl; auto. }
        specialize (IH st1 L1 r TH (fun q Hq => IM q (or_intror Hq)) (ex_inv _ _ _ _ EX1) N' Gx Gp' HM' H).
        destruct r as [w' n'|st'|]; auto.
        destruct IH as (L' & EX2 & HS2 & CV2). exists L'. split; [eapply Ext_trans; eauto|]. split; auto.
        intros HC mj mm [<-|Hm] Gmm c Dc k plan HS.
        * rewrite Gm in Gmm. injection Gmm as <-.
          destruct (CM c Dc _ _ HS) as (Rc & k' & plan' & Lk & PMp & HS').
          eapply Cov_mono; [apply EX1|exact EX2|].
          eapply Cov_le; [exact Lk| |exact (CV1 HC Rc _ _ HS')].
          intros _. rewrite CO. apply (plan_cost_perm P) in PMp. rewrite plan_cost_app in PMp. lia.
        * eapply CV2; eauto.
      + subst r. exact I.
  Qed.

  Lemma expand_ok fuel n s tn pi st L r : HSt st n ->
    GInv st L -> NInv P (t_world st) n s tn pi ->
    a_expand P C E fuel st n = r ->
    match r with
    | AStop w' n' => isGoal P n' = Some true /\ (exists s' tn' pi', NInv P w' n' s' tn' pi') /\ a_sub E = true
    | ACont st' => exists L', Ext st L st' L' /\ HSt st' n /\
         (Compl -> heads n <> [] -> forall k plan, solvesk P s tn k plan -> exists k', k = S k' /\ Cov st' L' k' (n_cost n + plan_cost P plan))
    | ACrash => True
    end.
  Proof.
    intros HS0 G N H. unfold a_expand in H. pose proof N as (R & _).
    destruct (n_abs n) as [|a0 ar] eqn:NA.
    - pose proof (actions_ok fuel n s tn pi (n_prim n) 0 st L r NA HS0 G N (fun j => eq_refl) H) as A.
      destruct r as [w' n'|st'|]; auto. destruct A as (L' & EX & HS2 & CV). exists L'. split; auto. split; auto.
      intros HC NH k plan HS.
      assert (NT : exists x, t_in tn x).
      { destruct (heads n) as [|q hs] eqn:Eh; [congruence|]. exists (pi q). apply (r_min _ _ _ _ _ _ R). rewrite Eh; simpl; auto. }
      destruct (solvesk_act_complete P s tn k plan (wf_acyclic P WP) (wf_abstract P WP) (wf_nonempty P WP) (r_wf _ _ _ _ _ _ R) NT
                 (primitive_heads P n s tn pi _ R NA) HS)
          as (x & k' & plan' & Mx & Ax & -> & -> & HS').
      exists k'. split; auto.
      destruct (minimal_head _ _ _ _ _ _ _ R Mx) as (y & Hy & <-).
      destruct (get_some (w_heap (t_world st)) y) as (q & Gq); [now apply (r_lt _ _ _ _ _ _ R)|].
      assert (Lq : t_lab tn (pi y) = ps_task q) by (eapply (r_lab _ _ _ _ _ _ R); eauto; now apply live_head).
      rewrite Lq in *. eapply CV; eauto. unfold heads in Hy. rewrite NA in Hy. exact Hy.
    - set (step := Nat.modulo (Z.to_nat (a_rnd E (t_rnd st))) (length (a0 :: ar))) in *.
      destruct (x <- get (a0 :: ar) step;; task_of (w_heap (t_world st)) x) as [tk|] eqn:ET; [|subst r; exact I].
      apply obind_some in ET as (x & Gx & ET). unfold task_of in ET. apply obind_some in ET as (ps & Gp & [= <-]).
      rewrite <- NA in Gx.
      set (st1 := {| t_world := t_world st; t_fringe := t_fringe st; t_vis := t_vis st; t_rnd := S (t_rnd st) |}) in *.
      assert (G1 : GInv st1 L) by exact G.
      assert (HM : forall mi, In mi (task_to_methods P (ps_task ps)) -> exists m, nth_error (p_methods P) mi = Some m /\ ps_task ps = m_task m).
      { intros mi Hm. unfold task_to_methods in Hm. apply filter_In in Hm as [_ Hm].
        destruct (nth_error (p_methods P) mi) as [m|]; [|discriminate]. apply Nat.eqb_eq in Hm. eauto. }
      pose proof (methods_ok fuel n s tn pi step x ps _ st1 L r HS0 (incl_refl _) G1 N Gx Gp HM H) as A.
      destruct r as [w' n'|st'|]; auto. destruct A as (L' & EX & HS2 & CV). exists L'. split.
      { split; try apply EX. }
      split; auto.
      intros HC NH k plan HS.
      assert (Hx : In x (n_abs n)) by (eapply nth_error_In; exact Gx).
      assert (Hxh : In x (heads n)) by (unfold heads; apply in_or_app; auto).
      assert (Lab : t_lab tn (pi x) = ps_task ps) by (eapply (r_lab _ _ _ _ _ _ R); eauto; now apply live_head).
      assert (NP : ~ primitive P (t_lab tn (pi x))).
      { rewrite Lab. unfold primitive. rewrite (r_abs _ _ _ _ _ _ R x ps Hx Gp). discriminate. }
      destruct (solvesk_dec_complete P s tn (pi x) k plan (wf_acyclic P WP) (r_wf _ _ _ _ _ _ R)) as (m & c & k' & -> & D & HS'); auto.
      { apply (r_min _ _ _ _ _ _ R). auto. }
      exists k'. split; auto.
      destruct (In_nth_error _ _ (d_method _ _ _ _ _ D)) as (mi & Gm).
      eapply CV; eauto. unfold task_to_methods. apply filter_In. split.
      + apply in_seq. split; [lia|]. simpl. apply nth_error_Some. congruence.
      + rewrite Gm. apply Nat.eqb_eq. rewrite <- Lab. symmetry. apply D.
  Qed.

  (** ** The main loop *)
  Definition Loop (st : astate V) (L : log) : Prop :=
    GInv st L /\ (exists l, history P C (t_world st) l /\ incl (map en_node (t_fringe st)) l) /\
    (Compl -> forall s tn g k plan, In (s, tn, g) L -> solvesk P s tn k plan ->
       Wit st k (g + plan_cost P plan) /\ (a_sub E = false -> exists k', k = S k' /\ Wit st k' (g + plan_cost P plan))) /\
    (Compl -> forall k plan, solvesk P s0 tn0 k plan -> Wit st k (plan_cost P plan)).

  (** A node with minimal f value costs no more than a witness, up to the weight. *)
  Lemma min_cost st L e k c : Opt -> GInv st L -> In e (t_fringe st) -> (forall x, In x (t_fringe st) -> (en_f e <= en_f x)%Z) -> Wit st k c ->
    (Z.of_nat (n_cost (en_node e)) <= Z.max 1 (a_weight E) * Z.of_nat c)%Z.
  Proof.
    intros O ((W & F) & _) He MN (q & s & tn & pi & k' & plan & Hq & N & Hk & HS & HC). specialize (HC O).
    pose proof (opt_weight O) as HW. specialize (MN q Hq).
    destruct (ei_f _ _ (F _ He)) as (he & Ke & Fe). destruct (ei_rep _ _ (F _ He)) as (se & te & pe & Ne).
    destruct (ei_f _ _ (F _ Hq)) as (hq & Kq & Fq).
    destruct (adm O _ _ _ _ _ _ W Ne Ke) as [He0 _].
    destruct (adm O _ _ _ _ _ _ W N Kq) as [_ Hq1].
    assert (SO : solves P s tn plan). { apply solves_solvesk; eauto using wf_acyclic. apply (r_wf _ _ _ _ _ _ (proj1 N)). }
    specialize (Hq1 plan SO).
    unfold fval, f_value in Fe, Fq. rewrite (opt_gval O) in Fe, Fq.
    assert (A : (0 <= he * a_weight E)%Z) by (apply Z.mul_nonneg_nonneg; lia).
    assert (B : (hq * a_weight E <= Z.of_nat (plan_cost P plan) * a_weight E)%Z) by (apply Z.mul_le_mono_nonneg_r; lia).
    assert (D : (Z.of_nat (plan_cost P plan) * a_weight E <= Z.of_nat (plan_cost P plan) * Z.max 1 (a_weight E))%Z) by (apply Z.mul_le_mono_nonneg_l; lia).
    assert (H1 : (Z.of_nat (n_cost (en_node q)) * 1 <= Z.of_nat (n_cost (en_node q)) * Z.max 1 (a_weight E))%Z) by (apply Z.mul_le_mono_nonneg_l; lia).
    assert (H2 : ((Z.of_nat (n_cost (en_node q)) + Z.of_nat (plan_cost P plan)) * Z.max 1 (a_weight E) <= Z.of_nat c * Z.max 1 (a_weight E))%Z) by (apply Z.mul_le_mono_nonneg_r; lia).
    rewrite Z.mul_add_distr_r in H2. lia.
  Qed.

  Definition Post (r : search_result) : Prop :=
    match r with
    | Solved w n => (solution P (printed_plan n) /\ n_cost n = plan_cost P (printed_plan n)) /\
        (Compl -> Opt -> forall k plan, solvesk P s0 tn0 k plan -> (Z.of_nat (n_cost n) <= Z.max 1 (a_weight E) * Z.of_nat (plan_cost P plan))%Z)
    | Unsolvable => Compl -> forall k plan, ~ solvesk P s0 tn0 k plan
    | _ => True
    end.

  Lemma loop_ok afuel fuel st L r : Loop st L -> a_loop P C E afuel fuel st = r -> Post r.
  Proof.
    revert st L r. induction fuel as [|fuel IH]; intros st L r (G & (lh & HHl & INl) & HW & HI) H; cbn [a_loop] in H.
    - destruct (a_pop E (t_fringe st)) as [(n & fr)|] eqn:EP; [subst r; exact I|].
      subst r. intros HC k plan HS. destruct (HI HC _ _ HS) as (n & ? & ? & ? & ? & ? & Hn & _).
      rewrite (proj2 (proj2 PQ) _ EP) in Hn. destruct Hn.
    - destruct (a_pop E (t_fringe st)) as [(e & fr)|] eqn:EP.
      2:{ subst r. intros HC k plan HS. destruct (HI HC _ _ HS) as (n & ? & ? & ? & ? & ? & Hn & _).
          rewrite (proj2 (proj2 PQ) _ EP) in Hn. destruct Hn. }
      pose proof G as ((W & F) & HV & HL).
      assert (FL : Forall (fun e => length (en_h e) = length (a_hs E)) (t_fringe st)).
      { apply Forall_forall. intros x Hx. apply (ei_len _ _ (F x Hx)). }
      destruct (proj1 (proj2 PQ) _ _ _ FL EP) as [PM _].
      assert (MN : forall x, In x (t_fringe st) -> (en_f e <= en_f x)%Z).
      { intros x Hx. apply (queue_pops_minimum _ _ _ _ _ _ _ PQ FL EP x Hx). }
      assert (IN : forall q, In q (t_fringe st) <-> q = e \/ In q fr).
      { intros q. rewrite (Permutation_in' eq_refl PM). simpl. intuition. }
      assert (He : In e (t_fringe st)) by (apply IN; auto).
      destruct (F e He) as [(s & tn & pi & N) NG _ FVe]. set (n := en_node e) in *.
      pose proof N as (R & _).
      destruct (if a_sub E then (true, t_vis st) else a_vis E (t_world st) (t_vis st) n (Some (en_f e))) as [ok v'] eqn:EV.
      set (st1 := {| t_world := t_world st; t_fringe := fr; t_vis := v'; t_rnd := t_rnd st |}) in *.
      assert (SK : forall s2 tn2, same_node s tn s2 tn2 -> wf_tn tn2 -> forall k plan, solvesk P s tn k plan -> solvesk P s2 tn2 k plan).
      { intros s2 tn2 SM W2 k plan HS. eapply solvesk_iso; [apply wf_acyclic; auto| | |exact SM|exact HS]; [apply (r_wf _ _ _ _ _ _ R)|auto]. }
      (* witnesses survive unless they are [n] *)
      assert (WN : forall k c, Wit st k c -> Wit st1 k c \/ exists k' plan, k' <= k /\ solvesk P s tn k' plan /\ (Opt -> n_cost n + plan_cost P plan <= c)).
      { intros k c (q & sq & tq & pq & kq & plq & A1 & A2 & A3 & A4 & A5). apply IN in A1 as [->|A1].
        - right. exists kq, plq. split; auto. split; auto.
          destruct A2 as (Rq & _). eapply solvesk_iso; [apply wf_acyclic; auto| | | |exact A4].
          + apply (r_wf _ _ _ _ _ _ Rq).
          + apply (r_wf _ _ _ _ _ _ R).
          + apply (Rep_iso P (w_heap (t_world st)) n sq tq pq s tn pi); auto.
        - left. exists q, sq, tq, pq, kq, plq. auto. }
      assert (F1 : SInv st1).
      { split; simpl; auto. intros q Hq. apply F, IN. auto. }
      assert (HFr : incl (map en_node fr) lh) by (intros q Hq; apply INl; apply in_map_iff in Hq as (y & <- & Hy); apply in_map, IN; auto).
      assert (Hnl : In n lh) by (apply INl; now apply in_map).
      assert (HS1 : HSt st1 n) by (exists lh; auto).
      assert (HS2 : forall st2 : astate V, HSt st2 n -> exists l, history P C (t_world st2) l /\ incl (map en_node (t_fringe st2)) l).
      { intros st2 (l2 & A & B & _). eauto. }
      assert (NE : isGoal P n <> Some true -> forall k plan, solvesk P s tn k plan -> heads n <> []).
      { intros Gn k plan HS. destruct (isGoal_total P WP _ _ _ _ _ N) as ([|] & Gb); [congruence|].
        eapply not_goal_nonempty; eauto. }
      assert (SBC : a_sub E = true \/ a_sub E = false) by (destruct (a_sub E); auto).
      destruct SBC as [So|So]; rewrite So in EV, H.
      + (* insertion at generation *)
        injection EV as <- <-.
        assert (NO : ~ Opt) by (intros O; apply opt_sub in O; congruence).
        assert (G1 : GInv st1 L) by (split; [auto|split; auto]).
        pose proof (expand_ok afuel n s tn pi st1 L _ HS1 G1 N eq_refl) as X.
        destruct (a_expand P C E afuel st1 n) as [w' n'|st2|] eqn:EX; [|clear EX|subst r; exact I].
        * subst r. destruct X as (Gg & (s' & tn' & pi' & N') & _). split; [eapply goal_solution; eauto|]. intros _ O. destruct (NO O).
        * destruct X as (L2 & X & XH & CV).
          assert (HA : Compl -> forall k s' tn' g plan, In (s', tn', g) L2 -> solvesk P s' tn' k plan -> Wit st2 k (g + plan_cost P plan)).
          { intros HC. induction k as [k IK] using lt_wf_ind. intros s' tn' g plan Hin HS.
            destruct (ex_new _ _ _ _ X s' tn' g Hin) as [Hold|[_ Hnew]]; [|eauto].
            destruct (HW HC _ _ _ _ _ Hold HS) as [Wt _]. destruct (WN _ _ Wt) as [Wt1|(k' & plan' & Lk & HS' & LC)].
            - eapply Wit_mono; [exact G1|apply X|apply X|exact Wt1].
            - destruct (CV HC (NE (NG So) _ _ HS') _ _ HS') as (j & -> & [Wt2|(sq & tq & gq & kq & plq & A1 & A2 & A3 & A4)]).
              + eapply Wit_le; [| |exact Wt2]; [lia|tauto].
              + eapply Wit_le; [| |eapply (IK kq); [|exact A1|exact A3]]; [lia|tauto|lia]. }
          apply (IH st2 L2); auto. split; [apply X|]. split; [auto|]. split.
          -- intros HC s' tn' g k plan Hin HS. split; [eauto|congruence].
          -- intros HC k plan HS. destruct (WN _ _ (HI HC _ _ HS)) as [Wt1|(k' & plan' & Lk & HS' & LC)].
             ++ eapply Wit_mono; [exact G1|apply X|apply X|exact Wt1].
             ++ destruct (CV HC (NE (NG So) _ _ HS') _ _ HS') as (j & -> & [Wt2|(sq & tq & gq & kq & plq & A1 & A2 & A3 & A4)]).
                ** eapply Wit_le; [| |exact Wt2]; [lia|tauto].
                ** eapply Wit_le; [| |eapply (HA HC kq); [exact A1|exact A3]]; [lia|tauto].
      + assert (FVn : FV (t_world st) n (Some (en_f e))) by (split; [exact So|exact FVe]).
        destruct ok.
        * (* new node *)
          pose proof (vis_new _ _ _ _ _ _ _ _ _ (J_hist _ _ _ HHl Hnl) W R FVn HV EV) as HV1.
          set (L1 := (s, tn, n_cost n) :: L) in *.
          assert (G1 : GInv st1 L1).
          { split; [auto|split; [auto|]]. intros a b c [[= <- <- <-]|Hab]; [apply (r_wf _ _ _ _ _ _ R)|eauto]. }
          destruct (isGoal P n) as [[|]|] eqn:Gn; [| |subst r; exact I].
          { subst r. split; [eapply goal_solution; eauto|]. intros HC O k plan HS. exact (min_cost st L e k _ O G He MN (HI HC _ _ HS)). }
          pose proof (expand_ok afuel n s tn pi st1 L1 _ HS1 G1 N eq_refl) as X.
          destruct (a_expand P C E afuel st1 n) as [w' n'|st2|] eqn:EX; [|clear EX|subst r; exact I].
          { destruct X as (_ & _ & So'). congruence. }
          destruct X as (L2 & X & XH & CV).
          assert (NE' := NE ltac:(discriminate)).
          assert (HA : Compl -> forall k s' tn' g plan, In (s', tn', g) L2 -> solvesk P s' tn' k plan -> exists k', k = S k' /\ Wit st2 k' (g + plan_cost P plan)).
          { intros HC. induction k as [k IK] using lt_wf_ind. intros s' tn' g plan Hin HS.
            destruct (ex_new _ _ _ _ X s' tn' g Hin) as [[[= <- <- <-]|Hold]|[So' _]]; [| |congruence].
            - destruct (CV HC (NE' _ _ HS) _ _ HS) as (j & -> & [Wt2|(sq & tq & gq & kq & plq & A1 & A2 & A3 & A4)]).
              + eauto.
              + exists j. split; auto. destruct (IK kq) with (3 := A3) (g := gq) as (i & -> & Wi); [lia|auto|].
                eapply Wit_le; [| |exact Wi]; [lia|exact A4].
            - destruct (HW HC _ _ _ _ _ Hold HS) as [_ WS]. destruct (WS So) as (k' & -> & Wt).
              exists k'. split; auto. destruct (WN _ _ Wt) as [Wt1|(kk & plan' & Lk & HS' & LC)].
              + eapply Wit_mono; [exact G1|apply X|apply X|exact Wt1].
              + destruct (IK kk) with (3 := HS') (g := n_cost n) as (i & -> & Wi); [lia| |].
                * apply X. left. reflexivity.
                * eapply Wit_le; [| |exact Wi]; [lia|exact LC]. }
          apply (IH st2 L2); auto. split; [apply X|]. split; [auto|]. split.
          -- intros HC s' tn' g k plan Hin HS. destruct (HA HC _ _ _ _ _ Hin HS) as (k' & -> & Wk). split; [|eauto].
             eapply Wit_le; [| |exact Wk]; lia.
          -- intros HC k plan HS. destruct (WN _ _ (HI HC _ _ HS)) as [Wt1|(k' & plan' & Lk & HS' & LC)].
             ++ eapply Wit_mono; [exact G1|apply X|apply X|exact Wt1].
             ++ destruct (HA HC k' s tn (n_cost n) plan') as (j & -> & Wj); auto.
                { apply X. left. reflexivity. }
                eapply Wit_le; [| |exact Wj]; [lia|exact LC].
        * (* already visited *)
          destruct (vis_old _ _ _ _ _ _ _ _ _ (J_hist _ _ _ HHl Hnl) W R FVn HV EV) as (HV1 & SMC).
          assert (HA : Compl -> forall k s' tn' g plan, In (s', tn', g) L -> solvesk P s' tn' k plan -> exists k', k = S k' /\ Wit st1 k' (g + plan_cost P plan)).
          { intros HC. destruct (SMC HC) as (s2 & tn2 & g2 & Hin2 & SM & GL). pose proof (SK s2 tn2 SM (HL _ _ _ Hin2)) as SK2. induction k as [k IK] using lt_wf_ind. intros s' tn' g plan Hin HS.
            destruct (HW HC _ _ _ _ _ Hin HS) as [_ WS]. destruct (WS So) as (k' & -> & Wt).
            exists k'. split; auto. destruct (WN _ _ Wt) as [Wt1|(kk & plan' & Lk & HS' & LC)]; auto.
            destruct (IK kk) with (3 := SK2 _ _ HS') (g := g2) as (i & -> & Wi); [lia|auto|].
            eapply Wit_le; [| |exact Wi]; [lia|]. intros O. specialize (GL O). specialize (LC O). lia. }
          apply (IH st1 L); auto. split; [split; [auto|split; auto]|]. split; [exists lh; auto|]. split.
          -- intros HC s' tn' g k plan Hin HS. destruct (HA HC _ _ _ _ _ Hin HS) as (k' & -> & Wk). split; [|eauto].
             eapply Wit_le; [| |exact Wk]; lia.
          -- intros HC k plan HS. destruct (WN _ _ (HI HC _ _ HS)) as [Wt1|(k' & plan' & Lk & HS' & LC)]; auto.
             destruct (SMC HC) as (s2 & tn2 & g2 & Hin2 & SM & GL). pose proof (SK s2 tn2 SM (HL _ _ _ Hin2)) as SK2.
             destruct (HA HC k' s2 tn2 g2 plan') as (j & -> & Wj); auto.
             eapply Wit_le; [| |exact Wj]; [lia|]. intros O. specialize (GL O). specialize (LC O). lia.
  Qed.

  Lemma astar_ok v0 afuel fuel : VI v0 [] ->
    match a_search P C E v0 afuel fuel with
    | Solved w n => (solution P (printed_plan n) /\ n_cost n = plan_cost P (printed_plan n)) /\
        (Compl -> Opt -> forall plan, solution P plan -> (Z.of_nat (n_cost n) <= Z.max 1 (a_weight E) * Z.of_nat (plan_cost P plan))%Z)
    | Unsolvable => Compl -> forall plan, ~ solution P plan
    | _ => True
    end.
  Proof.
    intros V0. unfold a_search. destruct (init_node P) as [(w & n)|] eqn:EI; [|exact I].
    destruct (init_rep P WP w n EI) as (Wh & N & NA).
    set (st := {| t_world := w; t_fringe := []; t_vis := v0; t_rnd := 0 |}).
    destruct (push_entry E st w v0 n (map (fun _ => 0%Z) (a_hs E))) as [st2|] eqn:EP; [|exact I].
    destruct (push_ok _ _ _ _ _ _ EP) as (e & h0 & Gh & En & Eh & Ef & Ew & Ev & INf).
    assert (H0 : h0 = 0%Z). { unfold get in Gh. apply nth_error_In in Gh. apply in_map_iff in Gh as (? & <- & _). reflexivity. }
    assert (IN : forall q, In q (t_fringe st2) <-> q = e). { intros q. rewrite INf. cbn. tauto. }
    assert (LP : Loop st2 []).
    { split; [split; [split|split]|split; [|split]]; rewrite ?Ew, ?Ev; auto.
      - intros q Hq. apply IN in Hq as ->. split; rewrite ?En.
        + eauto.
        + intros _. unfold isGoal. rewrite NA. discriminate.
        + rewrite Eh. apply map_length.
        + exists h0. split; auto. subst h0. now apply KF_root.
      - intros ? ? ? [].
      - exists [n]. split; [now apply h_init|]. intros q Hq. apply in_map_iff in Hq as (y & <- & Hy). apply IN in Hy as ->. rewrite En. now left.
      - intros ? ? ? ? ? ? [].
      - intros HC k plan HS. exists e, s0, tn0, (fun _ => []), k, plan. rewrite IN, Ew, En. split; [auto|]. split; [auto|]. split; [auto|]. split; [auto|].
        intros _. assert (CZ : n_cost n = 0). { unfold init_node in EI. apply obind_some in EI as (? & _ & EI). injection EI as _ <-. reflexivity. } lia. }
    pose proof (loop_ok afuel fuel st2 [] _ LP eq_refl) as H.
    assert (SS : forall plan, solution P plan -> exists k, solvesk P s0 tn0 k plan).
    { intros plan HS. apply solves_solvesk in HS; [|auto using wf_acyclic|apply N]. exact HS. }
    destruct (a_loop P C E afuel fuel st2); auto.
    - destruct H as [H1 H2]. split; auto. intros HC O plan HS. destruct (SS _ HS) as (k & HS'). eauto.
    - intros HC plan HS. destruct (SS _ HS) as (k & HS'). eapply H; eauto.
  Qed.
End Astar.
