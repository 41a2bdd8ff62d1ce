(** The solution record of a node: depth counters and the decomposition tree printed with a plan. *)
From Coq Require Import Relations Sorting.Sorted.
From Verif Require Import Base Rel Htn_model Htn_spec Htn_sem Htn_iso Htn_rep Htn_proof Htn_history Htn_search Htn_hist Tree_model Tree_spec.

(** ** Depth counters *)
Definition decs (l : list solstep) : nat := length (filter (fun s => negb (is_act s)) l).

Lemma history_depth P C w l : history P C w l -> forall n, In n l ->
  n_depth n = length (n_sol n) /\ n_mixed n = n_cost n + decs (n_sol n).
Proof.
  intros H. apply (history_pres P C (fun _ _ n => n_depth n = length (n_sol n) /\ n_mixed n = n_cost n + decs (n_sol n))) with (w := w) (l := l); auto.
  - clear. intros fuel w n i w' n' [D M] E. unfold apply1 in E. inv_opt. destruct x3 as [nfp nfa]. inv_opt.
    destruct (n_sol n) as [|a l]; [discriminate|]. injection E as <- <-. cbn [n_depth n_sol n_mixed n_cost]. rewrite D, M. split; [reflexivity|].
    unfold decs. cbn. lia.
  - clear. intros w n i mi w' n' x tk [D M] _ _ _ E. unfold decompose1 in E. inv_opt. destruct (forallb _ _); [|discriminate].
    inv_opt. destruct x3 as [fp fa]. inv_opt. subst. cbn [n_depth n_sol n_mixed n_cost]. rewrite D, M. split; [reflexivity|].
    unfold decs. cbn. lia.
  - clear. intros w n E. unfold init_node in E. inv_opt. subst. auto.
Qed.

(** ** The chain of a node is a partial decomposition tree *)
Definition chain := list (solstep * tid).

Section Chain.
  Variable P : problem.

  Definition meth (st : solstep) (m : method) : Prop := exists mi, ss_method st = Some mi /\ nth_error (p_methods P) mi = Some m.
  Definition D (la : chain) (z : tid) (m : method) : Prop := exists st, In (st, z) la /\ meth st m.
  Definition tord (la : chain) (x y : tid) : Prop := exists z m j k u v,
    D la z m /\ x = z ++ j :: u /\ y = z ++ k :: v /\ m_lt m j k.
  Definition linked (la : chain) (par pos task : nat) (z : tid) : Prop := exists p zp m,
    In (p, zp) la /\ meth p m /\ par = ss_inst p /\ z = zp ++ [pos] /\ nth_error (m_subs m) pos = Some task.

  Record TInv (inst : nat) (tn : tnet) (la : chain) : Prop := {
    t_desc : StronglySorted (fun a b => b < a) (map (fun p => ss_inst (fst p)) la);
    t_inst : forall st z, In (st, z) la -> ss_inst st < inst;
    t_nd : NoDup (map snd la);
    t_front : forall x z, t_in tn x -> In z (map snd la) -> ~ prefix x z;
    t_meth : forall st z mi, In (st, z) la -> ss_method st = Some mi -> exists m, nth_error (p_methods P) mi = Some m /\ m_task m = ss_task st;
    t_prim : forall st z, In (st, z) la -> ss_method st = None -> primitive P (ss_task st);
    t_start : la = [] -> t_in tn [];
    t_root : la = [] \/ exists la' st, la = la' ++ [(st, [])] /\ ss_task st = p_init P /\ ss_method st <> None /\ ss_parent st = 0;
    t_par : forall st z, In (st, z) la -> z = [] \/ linked la (ss_parent st) (ss_pos st) (ss_task st) z;
    t_cover : forall z m j, D la z m -> j < length (m_subs m) -> In (z ++ [j]) (map snd la) \/ t_in tn (z ++ [j]);
    t_ord1 : forall x y, t_in tn x -> t_in tn y -> (t_ord tn x y <-> tord la x y);
    t_ord2 : forall st a y, In (st, a) la -> ss_method st = None -> t_in tn y -> ~ tord la y a;
    t_ord3 : forall sa a sb b, In (sa, a) la -> In (sb, b) la -> ss_method sa = None -> ss_method sb = None ->
               ss_inst sa < ss_inst sb -> ~ tord la b a }.

  Definition HL (h : list pstep) (n : node) (pi : nat -> tid) (la : chain) : Prop :=
    forall i ps, live h n i -> get h i = Some ps ->
      (la = [] /\ pi i = [] /\ ps_task ps = p_init P /\ ps_parent ps = 0) \/
      linked la (ps_parent ps) (ps_pos ps) (ps_task ps) (pi i).

  Definition TQ (h : list pstep) (inst : nat) (n : node) : Prop :=
    wf_heap P h /\ exists s tn pi la, Rep P h n s tn pi /\ TInv inst tn la /\ HL h n pi la /\ map fst la = n_sol n.

  Lemma D_cons st z la x m : D ((st, z) :: la) x m <-> (x = z /\ meth st m) \/ D la x m.
  Proof.
    unfold D. split.
    - intros (s & [E|Hi] & M); [injection E as -> ->; auto|right; eauto].
    - intros [[-> M]|(s & Hi & M)]; [exists st; split; [left; auto|auto]|exists s; split; [right; auto|auto]].
  Qed.
  Lemma D_in la z m : D la z m -> In z (map snd la).
  Proof. intros (s & Hi & _). apply in_map_iff. exists (s, z). auto. Qed.

  Lemma linked_cons e la a b c z : linked la a b c z -> linked (e :: la) a b c z.
  Proof. intros (p & zp & m & Hi & Q). exists p, zp, m. split; [right; auto|auto]. Qed.

  Lemma D_cons_act st z la x m : ss_method st = None -> D ((st, z) :: la) x m <-> D la x m.
  Proof.
    intros N. rewrite D_cons. split; [|auto]. intros [[_ (mi & E & _)]|H]; [congruence|auto].
  Qed.
  Lemma tord_cons_act st z la x y : ss_method st = None -> tord ((st, z) :: la) x y <-> tord la x y.
  Proof.
    intros N. unfold tord. split; intros (z' & m & j & k & u & v & HD & Q); exists z', m, j, k, u, v; split; auto.
    - now apply D_cons_act in HD.
    - now apply D_cons_act.
  Qed.

  Lemma TInv_apply inst tn la st x : TInv inst tn la -> wf_tn tn -> minimal tn x -> la <> [] ->
    ss_method st = None -> ss_inst st = inst -> primitive P (ss_task st) ->
    linked la (ss_parent st) (ss_pos st) (ss_task st) x ->
    TInv (S inst) (minus tn x) ((st, x) :: la).
  Proof.
    intros T W [Hx Min] NE NM EI PR LK.
    assert (NX : ~ In x (map snd la)).
    { intros H. apply (t_front _ _ _ T x x Hx H). exists []. now rewrite app_nil_r. }
    split.
    - simpl. constructor; [apply T|]. apply Forall_forall. intros i Hi. apply in_map_iff in Hi as ([s z] & <- & Hi).
      rewrite EI. apply (t_inst _ _ _ T _ _ Hi).
    - intros s z [E|Hi]; [injection E as <- <-; lia|]. pose proof (t_inst _ _ _ T _ _ Hi). lia.
    - simpl. constructor; [exact NX|apply T].
    - simpl. intros y z [Hy N] [<-|Hz] Hp; [|exact (t_front _ _ _ T y z Hy Hz Hp)]. apply N. apply (wt_anti _ W); auto.
    - intros s z mi [E|Hi] M; [injection E as <- <-; congruence|]. eapply (t_meth _ _ _ T); eauto.
    - intros s z [E|Hi] M; [injection E as <- <-; auto|]. eapply (t_prim _ _ _ T); eauto.
    - discriminate.
    - right. destruct (t_root _ _ _ T) as [->|(la' & s & -> & Q)]; [congruence|]. exists ((st, x) :: la'), s. auto.
    - intros s z [E|Hi]; [injection E as <- <-; right; now apply linked_cons|].
      destruct (t_par _ _ _ T s z Hi) as [H|H]; [auto|right; now apply linked_cons].
    - intros z m j HD Hj. apply D_cons_act in HD; auto. simpl.
      destruct (t_cover _ _ _ T z m j HD Hj) as [H|H]; [auto|]. destruct (tid_eq_dec x (z ++ [j])); auto.
    - simpl. intros a b [Ha Na] [Hb Nb]. rewrite tord_cons_act by auto. rewrite <- (t_ord1 _ _ _ T); tauto.
    - simpl. intros s a y [E|Hi] M [Hy Ny]; rewrite tord_cons_act by auto.
      + injection E as <- <-. intros TO. apply (t_ord1 _ _ _ T) in TO; auto. exact (Min _ TO).
      + eapply (t_ord2 _ _ _ T); eauto.
    - intros sa a sb b [E|Ha] [E'|Hb] Ma Mb L; rewrite tord_cons_act by auto.
      + injection E as <- <-. injection E' as <- <-. lia.
      + injection E as <- <-. pose proof (t_inst _ _ _ T _ _ Hb). lia.
      + injection E' as <- <-. eapply (t_ord2 _ _ _ T); eauto.
      + eapply (t_ord3 _ _ _ T sa a sb b); eauto.
  Qed.

  (** A proper prefix of [x ++ [j]] that is not [x] is a proper prefix of [x]. *)
  Lemma snoc_cons (x z : tid) j a u : x ++ [j] = z ++ a :: u -> (z = x /\ a = j /\ u = []) \/ exists u', x = z ++ a :: u' /\ u = u' ++ [j].
  Proof.
    intros E. destruct u as [|c u] using rev_ind.
    - apply app_inj_tail in E as [-> ->]. auto.
    - right. exists u. rewrite app_comm_cons, app_assoc in E. apply app_inj_tail in E as [-> ->]. auto.
  Qed.

  Lemma TInv_decompose inst tn la st x m tn' : wf_problem P ->
    TInv inst tn la -> wf_tn tn -> decomposes P tn x m tn' ->
    meth st m -> ss_inst st = inst -> ss_task st = m_task m ->
    (la = [] -> x = [] /\ ss_task st = p_init P /\ ss_parent st = 0) ->
    (la <> [] -> linked la (ss_parent st) (ss_pos st) (ss_task st) x) ->
    TInv (S inst) tn' ((st, x) :: la).
  Proof.
    intros WP T W DC MT EI TK L0 L1.
    assert (Hx : t_in tn x) by apply DC.
    assert (NX : ~ In x (map snd la)).
    { intros H. apply (t_front _ _ _ T x x Hx H). exists []. now rewrite app_nil_r. }
    assert (NA : ss_method st <> None) by (destruct MT as (mi & E & _); congruence).
    assert (NC : forall j, ~ t_in tn (x ++ [j])) by (intros j; apply child_not_in; auto).
    assert (ACY : forall z m', D ((st, x) :: la) z m' -> forall j, ~ m_lt m' j j).
    { intros z m' HD. apply (wf_acyclic P WP). destruct HD as (s & _ & (mi & _ & Hm)). eapply nth_error_In; eauto. }
    assert (PRE : forall y (u : tid) j, t_in tn y -> y = x ++ j :: u -> False).
    { intros y u j Hy ->. assert (E : x = x ++ j :: u) by (apply (wt_anti _ W); auto; exists (j :: u); auto).
      apply (f_equal (@length nat)) in E. rewrite app_length in E. simpl in E. lia. }
    (* orderings that involve an old task on one side *)
    assert (TL : forall j y, tord la (x ++ [j]) y <-> tord la x y).
    { intros j y. split; intros (z & m' & a & b & u & v & HD & E1 & E2 & Lt).
      - apply snoc_cons in E1 as [(-> & _ & _)|(u' & -> & _)]; [destruct NX; eapply D_in; eauto|].
        exists z, m', a, b, u', v. auto.
      - exists z, m', a, b, (u ++ [j]), v. subst. rewrite <- app_assoc. auto. }
    assert (TR : forall j y, tord la y (x ++ [j]) <-> tord la y x).
    { intros j y. split; intros (z & m' & a & b & u & v & HD & E1 & E2 & Lt).
      - apply snoc_cons in E2 as [(-> & _ & _)|(u' & -> & _)]; [destruct NX; eapply D_in; eauto|].
        exists z, m', a, b, u, u'. auto.
      - exists z, m', a, b, u, (v ++ [j]). subst. rewrite <- app_assoc. auto. }
    assert (TC : forall a b, tord ((st, x) :: la) a b <-> tord la a b \/ exists m' j k u v, meth st m' /\ a = x ++ j :: u /\ b = x ++ k :: v /\ m_lt m' j k).
    { intros a b. split.
      - intros (z & m' & j & k & u & v & HD & Q). apply D_cons in HD as [[-> M]|HD]; [right; exists m', j, k, u, v; tauto|left; exists z, m', j, k, u, v; tauto].
      - intros [(z & m' & j & k & u & v & HD & Q)|(m' & j & k & u & v & M & Q)].
        + exists z, m', j, k, u, v. split; auto. apply D_cons; auto.
        + exists x, m', j, k, u, v. split; auto. apply D_cons; auto. }
    assert (UM : forall m', meth st m' -> m' = m).
    { intros m' (mi & E & G). destruct MT as (mi' & E' & G'). congruence. }
    assert (NB : forall s a k v, In (s, a) la -> a = x ++ k :: v -> False).
    { intros s a k v Hi ->. apply (t_front _ _ _ T x (x ++ k :: v) Hx); [apply in_map_iff; exists (s, x ++ k :: v); auto|exists (k :: v); auto]. }
    split.
    - simpl. constructor; [apply T|]. apply Forall_forall. intros i Hi. apply in_map_iff in Hi as ([s z] & <- & Hi).
      rewrite EI. apply (t_inst _ _ _ T _ _ Hi).
    - intros s z [E|Hi]; [injection E as <- <-; lia|]. pose proof (t_inst _ _ _ T _ _ Hi). lia.
    - simpl. constructor; [exact NX|apply T].
    - intros y z Hy Hz Hp. apply (d_in' _ _ _ _ _ DC) in Hy as [[Hy N]|(j & Hj & ->)]; simpl in Hz; destruct Hz as [<-|Hz].
      + apply N. apply (wt_anti _ W); auto.
      + exact (t_front _ _ _ T y z Hy Hz Hp).
      + destruct Hp as [u E]. apply (f_equal (@length nat)) in E. rewrite !app_length in E. simpl in E. lia.
      + apply (t_front _ _ _ T x z Hx Hz). destruct Hp as [u ->]. exists ([j] ++ u). now rewrite app_assoc.
    - intros s z mi [E|Hi] M; [injection E as <- <-|eapply (t_meth _ _ _ T); eauto].
      destruct MT as (mi' & E' & G'). rewrite M in E'. injection E' as <-. exists m. auto.
    - intros s z [E|Hi] M; [injection E as <- <-; congruence|]. eapply (t_prim _ _ _ T); eauto.
    - discriminate.
    - right. destruct (t_root _ _ _ T) as [E|(la' & s & -> & Q)].
      + subst la. destruct (L0 eq_refl) as (-> & Q1 & Q2). exists [], st. auto.
      + exists ((st, x) :: la'), s. auto.
    - intros s z [E|Hi].
      + injection E as <- <-. destruct la as [|e la]; [left; now apply L0|right; apply linked_cons, L1; discriminate].
      + destruct (t_par _ _ _ T s z Hi) as [H|H]; [auto|right; now apply linked_cons].
    - intros z m' j HD Hj. apply D_cons in HD as [[-> M]|HD].
      + right. apply (d_in' _ _ _ _ _ DC). right. rewrite (UM _ M) in Hj. eauto.
      + simpl. destruct (t_cover _ _ _ T z m' j HD Hj) as [H|H]; [auto|].
        destruct (tid_eq_dec x (z ++ [j])); [auto|]. right. apply (d_in' _ _ _ _ _ DC). left. auto.
    - intros a b Ha Hb. rewrite (d_ord _ _ _ _ _ DC), TC. apply (d_in' _ _ _ _ _ DC) in Ha, Hb.
      destruct Ha as [[Ha Na]|(j & Hj & ->)], Hb as [[Hb Nb]|(k & Hk & ->)].
      + rewrite <- (t_ord1 _ _ _ T) by auto. split.
        * intros [Q|[Q|[Q|Q]]]; tidy; auto; exfalso; eapply NC; eauto.
        * intros [Q|(m' & j & k & u & v & M & E1 & E2 & Lt)]; [left; auto|exfalso; eapply PRE; [exact Ha|exact E1]].
      + rewrite TR, <- (t_ord1 _ _ _ T) by auto. split.
        * intros [Q|[Q|[Q|Q]]]; tidy; auto; exfalso; eapply NC; eauto.
        * intros [Q|(m' & j & k' & u & v & M & E1 & E2 & Lt)]; [right; right; right; exists k; auto|exfalso; eapply PRE; [exact Ha|exact E1]].
      + rewrite TL, <- (t_ord1 _ _ _ T) by auto. split.
        * intros [Q|[Q|[Q|Q]]]; tidy; auto; exfalso; eapply NC; eauto.
        * intros [Q|(m' & j' & k & u & v & M & E1 & E2 & Lt)]; [right; right; left; exists j; auto|exfalso; eapply PRE; [exact Hb|exact E2]].
      + rewrite TL, TR, <- (t_ord1 _ _ _ T) by auto. split.
        * intros [Q|[Q|[Q|Q]]]; tidy; try (exfalso; eapply NC; eauto; fail).
          right. exists m. do 2 eexists. exists [], []. auto.
        * intros [Q|(m' & j' & k' & u & v & M & E1 & E2 & Lt)]; [exfalso; eapply (wt_irr _ W); eauto|].
          apply app_inv_head in E1, E2. injection E1 as -> <-. injection E2 as -> <-. rewrite (UM _ M) in Lt.
          right. left. exists j', k'. auto.
    - intros s a y [E|Hi] M Hy; [injection E as <- <-; congruence|]. rewrite TC.
      intros [TO|(m' & j & k & u & v & _ & E1 & E2 & Lt)]; [|eapply NB; eauto].
      apply (d_in' _ _ _ _ _ DC) in Hy as [[Hy N]|(j & Hj & ->)]; [eapply (t_ord2 _ _ _ T); eauto|].
      rewrite TL in TO. eapply (t_ord2 _ _ _ T); eauto.
    - intros sa a sb b [E|Ha] [E'|Hb] Ma Mb L; try (injection E as <- <-; congruence); try (injection E' as <- <-; congruence).
      rewrite TC. intros [TO|(m' & j & k & u & v & _ & E1 & E2 & Lt)]; [eapply (t_ord3 _ _ _ T sa a sb b); eauto|].
      eapply NB; [exact Ha|exact E2].
  Qed.

  Lemma TInv_inst i i' tn la : TInv i tn la -> i <= i' -> TInv i' tn la.
  Proof. intros T L. split; try apply T. intros st z Hi. pose proof (t_inst _ _ _ T _ _ Hi). lia. Qed.
End Chain.

Section TQ.
  Variables (P : problem) (C : config).
  Hypothesis WP : wf_problem P.
  Hypothesis HP : forall l, Permutation l (c_perm C l).

  Lemma TQ_apply fuel w n i w' n' : TQ P (w_heap w) (w_inst w) n ->
    apply1 P (c_perm C) (c_eff C) fuel w n i = Some (w', n') -> TQ P (w_heap w') (w_inst w') n'.
  Proof.
    intros (W & s & tn & pi & la & R & T & H & ML) E.
    destruct (apply1_rep_full P C fuel w n i w' n' s tn pi HP W R E) as (x & ps & Gx & Gp & Lab & Min & Prm & Hh & LV & R').
    assert (F : exists st, n_sol n <> [] /\ n_sol n' = st :: n_sol n /\ w_inst w' = S (w_inst w) /\ ss_task st = ps_task ps /\ ss_method st = None /\
              ss_inst st = w_inst w /\ ss_pos st = ps_pos ps /\ ss_parent st = ps_parent ps).
    { clear - E Gx Gp. unfold apply1 in E. rewrite Gx in E. cbn [obind] in E. rewrite Gp in E. cbn [obind] in E.
      inv_opt. destruct x2. inv_opt. destruct (n_sol n) as [|hd tl]; [discriminate|]. injection E as <- <-.
      eexists. split; [discriminate|]. split; [reflexivity|]. auto 10. }
    destruct F as (st & NE & NS & Ei & F1 & F2 & F3 & F4 & F5).
    assert (LA : la <> []) by (intros ->; apply NE; now rewrite <- ML).
    assert (LX : live (w_heap w) n x).
    { apply live_head. apply in_or_app. right. eapply nth_error_In; exact Gx. }
    split; [now rewrite Hh|]. exists (result P s (ps_task ps)), (minus tn (pi x)), pi, ((st, pi x) :: la).
    split; auto. rewrite Ei, Hh. split; [|split].
    - apply TInv_apply; auto; [apply (r_wf _ _ _ _ _ _ R)|now rewrite F1|].
      rewrite F1, F4, F5. destruct (H x ps LX Gp) as [(Q & _)|Q]; [congruence|exact Q].
    - intros a q Ha Gq. right. apply LV in Ha as [Ha _]. apply linked_cons. destruct (H a q Ha Gq) as [(Q & _)|Q]; [congruence|exact Q].
    - simpl. now rewrite ML, NS.
  Qed.

  Lemma TQ_unreach h i n : TQ P h i n -> TQ P h i (set_unreachable n).
  Proof.
    intros (W & s & tn & pi & la & R & T & H & ML). split; auto. exists s, tn, pi, la. split; [|auto].
    destruct R as [a1 a2 a3 a4 a5 a6 a7 a8 a9 a10 a11 a12]. constructor; auto.
  Qed.

  Lemma TQ_decompose w n i mi w' n' x tk : TQ P (w_heap w) (w_inst w) n -> get (n_abs n) i = Some x -> task_of (w_heap w) x = Some tk ->
    In mi (task_to_methods P tk) -> decompose1 P (c_eff C) w n i mi = Some (w', n') -> TQ P (w_heap w') (w_inst w') n'.
  Proof.
    intros (W & s & tn & pi & la & R & T & H & ML) Gx Tx Hm E.
    unfold task_of in Tx. apply obind_some in Tx as (ps & Gp & [= <-]).
    assert (HM : exists m, nth_error (p_methods P) mi = Some m /\ ps_task ps = m_task m).
    { unfold task_to_methods in Hm. apply filter_In in Hm as [_ Hm].
      destruct (nth_error (p_methods P) mi) as [m|]; [|discriminate]. apply Nat.eqb_eq in Hm. eauto. }
    destruct HM as (m & Gm & Tm).
    destruct (decompose1_rep_full P C w n i mi w' n' s tn pi (wf_methods _ WP) W R E)
      as (x' & ps' & m' & pi' & Gx' & Gp' & Gm' & Min & Hh & W' & DC & PO & PN & LV & R').
    { intros x' ps' m' A1 A2 A3. congruence. }
    assert (x' = x) by congruence. subst x'. assert (ps' = ps) by congruence. subst ps'. assert (m' = m) by congruence. subst m'.
    assert (F : exists st, n_sol n' = st :: n_sol n /\ w_inst w' = S (w_inst w) /\ ss_task st = ps_task ps /\ ss_method st = Some mi /\
              ss_inst st = w_inst w /\ ss_pos st = ps_pos ps /\ ss_parent st = ps_parent ps).
    { clear - E Gx Gp. unfold decompose1 in E. rewrite Gx in E. cbn [obind] in E. rewrite Gp in E. cbn [obind] in E.
      inv_opt. destruct (forallb _ _); [|discriminate]. inv_opt. destruct x1. inv_opt. subst.
      eexists. split; [reflexivity|]. auto 10. }
    destruct F as (st & NS & Ei & F1 & F2 & F3 & F4 & F5).
    assert (LX : live (w_heap w) n x).
    { apply live_head. apply in_or_app. left. eapply nth_error_In; exact Gx. }
    assert (MT : meth P st m) by (exists mi; auto).
    split; [auto|]. exists s, (decF tn (pi x) m), pi', ((st, pi x) :: la).
    split; auto. rewrite Ei. split; [|split].
    - eapply TInv_decompose; eauto; [apply (r_wf _ _ _ _ _ _ R)|congruence| |].
      + intros EL. rewrite F1, F5. destruct (H x ps LX Gp) as [(_ & Q)|Q]; [auto|].
        destruct Q as (p & zp & q & Hi & _). subst la. destruct Hi.
      + intros EL. rewrite F1, F4, F5. destruct (H x ps LX Gp) as [(Q & _)|Q]; [congruence|exact Q].
    - intros a q Ha Gq. apply LV in Ha as [[Ha Na]|(j & Hj & ->)]; right.
      + assert (La : a < length (w_heap w)) by (eapply live_lt; eauto; apply (r_lt _ _ _ _ _ _ R)).
        rewrite Hh in Gq. rewrite get_app_l in Gq by auto. rewrite PO by auto.
        destruct (H a q Ha Gq) as [(EL & Q & _)|Q]; [|now apply linked_cons].
        exfalso. apply Na. apply (r_inj _ _ _ _ _ _ R); auto. rewrite Q. destruct (H x ps LX Gp) as [(_ & Q' & _)|Q']; [auto|].
        destruct Q' as (p & zp & q' & Hi & _). subst la. destruct Hi.
      + rewrite PN. rewrite Hh in Gq. unfold get in Gq. rewrite nth_error_app2 in Gq by lia.
        replace (length (w_heap w) + j - length (w_heap w)) with j in Gq by lia.
        destruct (nth_error (m_subs m) j) as [t|] eqn:Et; [|apply nth_error_None in Et; lia].
        pose proof (method_steps_get m (length (w_heap w)) (w_inst w) (ps_succ ps) j t Et) as Q. unfold get in Q. rewrite Q in Gq.
        injection Gq as <-. exists st, (pi x), m. cbn [method_step ps_parent ps_pos ps_task]. split; [left; auto|]. auto.
    - simpl. now rewrite ML, NS.
  Qed.

  Lemma TQ_ext h e i i' n : TQ P h i n -> wf_heap P (h ++ e) -> i <= i' -> TQ P (h ++ e) i' n.
  Proof.
    intros (W & s & tn & pi & la & R & T & H & ML) W' L. split; auto. exists s, tn, pi, la.
    split; [now apply Rep_ext|]. split; [eapply TInv_inst; eauto|]. split; auto.
    intros a q Ha Gq. apply (proj1 (live_ext P h e n a W (r_lt _ _ _ _ _ _ R))) in Ha.
    apply H; auto. rewrite get_app_l in Gq; auto. eapply live_lt; eauto. apply (r_lt _ _ _ _ _ _ R).
  Qed.

  Lemma TQ_init w n : init_node P = Some (w, n) -> TQ P (w_heap w) (w_inst w) n.
  Proof.
    intros E. destruct (init_rep P WP w n E) as (W & (R & _) & _). split; auto.
    exists (initial_state P), (initial_network P), (fun _ => []), []. split; [exact R|].
    unfold init_node in E. inv_opt. subst. cbn [w_heap w_inst n_sol]. split; [|split; auto].
    - split; simpl; try (intros; tauto); try apply SSorted_nil; try apply NoDup_nil; auto.
      + intros z m j (st & [] & _).
      + intros a b _ _. split; [tauto|]. intros (z & m & j & k & u & v & (st & [] & _) & _).
    - intros i ps _ Gp. left. destruct i as [|[|i]]; simpl in Gp; try discriminate. injection Gp as <-. auto.
  Qed.
End TQ.

(** ** Sorting the children *)
Lemma pair_insert_perm x l : Permutation (pair_insert x l) (x :: l).
Proof.
  induction l as [|y r IH]; simpl; [reflexivity|].
  destruct (_ || _); [|reflexivity]. etransitivity; [apply perm_skip, IH|apply perm_swap].
Qed.
Lemma pair_sort_perm l : Permutation (pair_sort l) l.
Proof.
  unfold pair_sort. assert (H : forall l acc, Permutation (fold_left (fun acc x => pair_insert x acc) l acc) (l ++ acc)).
  { clear l. induction l as [|x l IH]; intros acc; simpl; [reflexivity|].
    etransitivity; [apply IH|]. etransitivity; [apply Permutation_app_head, pair_insert_perm|]. symmetry. apply Permutation_middle. }
  rewrite (H l []), app_nil_r. reflexivity.
Qed.
Lemma pair_insert_sorted x l : StronglySorted (fun a b => fst a <= fst b) l -> StronglySorted (fun a b => fst a <= fst b) (pair_insert x l).
Proof.
  induction 1 as [|y r S IH F]; simpl.
  - repeat constructor.
  - destruct (_ || _) eqn:B.
    + constructor; auto. apply Forall_forall. intros z Hz. apply (Permutation_in _ (pair_insert_perm x r)) in Hz as [<-|Hz].
      * apply orb_true_iff in B as [B|B]; [apply Nat.ltb_lt in B; lia|]. apply andb_true_iff in B as [B _]. apply Nat.eqb_eq in B. lia.
      * now apply (proj1 (Forall_forall _ _) F).
    + apply orb_false_iff in B as [B _]. apply Nat.ltb_ge in B. constructor; [constructor; auto|].
      constructor; auto. apply Forall_forall. intros z Hz. pose proof (proj1 (Forall_forall _ _) F z Hz). simpl in *. lia.
Qed.
Lemma pair_sort_sorted l : StronglySorted (fun a b => fst a <= fst b) (pair_sort l).
Proof.
  unfold pair_sort. assert (H : forall l acc, StronglySorted (fun a b : nat * nat => fst a <= fst b) acc ->
    StronglySorted (fun a b => fst a <= fst b) (fold_left (fun acc x => pair_insert x acc) l acc)).
  { clear l. induction l as [|x l IH]; intros acc HS; simpl; auto. apply IH. now apply pair_insert_sorted. }
  apply H. constructor.
Qed.

(** A sorted list of pairs with first components 0..k-1, each once. *)
Lemma sorted_seq : forall (l : list (nat * nat)) b k, StronglySorted (fun a b => fst a <= fst b) l ->
  NoDup (map fst l) -> (forall j, In j (map fst l) <-> b <= j < b + k) -> map fst l = seq b k.
Proof.
  induction l as [|x l IH]; intros b k S N H; simpl in *.
  - destruct k as [|k]; auto. destruct (proj2 (H b)). lia.
  - inversion S as [|? ? S' F]; subst. inversion N as [|? ? N1 N2]; subst.
    assert (Hx := proj1 (H (fst x)) (or_introl eq_refl)).
    destruct k as [|k]; [lia|].
    assert (Eb : fst x = b).
    { destruct (proj2 (H b)) as [E|E]; [lia|auto|]. apply in_map_iff in E as (y & Ey & Hy).
      pose proof (proj1 (Forall_forall _ _) F y Hy). simpl in *. lia. }
    simpl. f_equal; auto. apply IH; auto. intros j. split.
    + intros Hj. destruct (proj1 (H j) (or_intror Hj)). destruct (Nat.eq_dec j b) as [E|E]; [|lia]. destruct N1. now rewrite Eb, <- E.
    + intros Hj. destruct (proj2 (H j)) as [E|E]; [lia|lia|auto].
Qed.

(** ** The tree of a goal node *)
Section Goal.
  Variables (P : problem) (inst : nat) (tn : tnet) (la : chain).
  Hypothesis WP : wf_problem P.
  Hypothesis T : TInv P inst tn la.
  Hypothesis EM : forall x, ~ t_in tn x.
  Let l := map fst la.

  Lemma la_root : exists la' st, la = la' ++ [(st, [])] /\ ss_task st = p_init P /\ ss_method st <> None /\ ss_parent st = 0.
  Proof. destruct (t_root _ _ _ _ T) as [E|H]; auto. destruct (EM _ (t_start _ _ _ _ T E)). Qed.

  Lemma in_l s : In s l <-> exists z, In (s, z) la.
  Proof.
    unfold l. rewrite in_map_iff. split; [intros ([s' z] & <- & H); eauto|intros (z & H); exists (s, z); auto].
  Qed.

  Lemma inst_inj s z s' z' : In (s, z) la -> In (s', z') la -> ss_inst s = ss_inst s' -> s = s' /\ z = z'.
  Proof.
    pose proof (t_desc _ _ _ _ T) as S. revert S. generalize la as L. induction L as [|e L IH]; intros S H H' E; [destruct H|].
    simpl in S. inversion S as [|? ? S' F]; subst. rewrite Forall_forall in F.
    destruct H as [->|H], H' as [E'|H'].
    - injection E' as <- <-. auto.
    - assert (Q := F (ss_inst s')). simpl in Q. rewrite E in Q. exfalso. enough (ss_inst s' < ss_inst s') by lia. apply Q. apply in_map_iff. exists (s', z'). auto.
    - subst e. assert (Q := F (ss_inst s)). simpl in Q. rewrite <- E in Q. exfalso. enough (ss_inst s < ss_inst s) by lia. apply Q. apply in_map_iff. exists (s, z). auto.
    - auto.
  Qed.
  Lemma addr_inj s s' z : In (s, z) la -> In (s', z) la -> s = s'.
  Proof.
    pose proof (t_nd _ _ _ _ T) as S. revert S. generalize la as L. induction L as [|e L IH]; intros S H H'; [destruct H|].
    simpl in S. inversion S as [|? ? N S']; subst. destruct H as [->|H], H' as [E'|H']; auto.
    - now injection E' as <-.
    - destruct N. apply in_map_iff. exists (s', z). auto.
    - subst e. destruct N. apply in_map_iff. exists (s, z). auto.
  Qed.
  Lemma inst_pos s z : In (s, z) la -> z <> [] -> 0 < ss_inst s.
  Proof.
    intros H N. destruct la_root as (la' & st & E & _). pose proof (t_desc _ _ _ _ T) as S. rewrite E in H, S.
    apply in_app_or in H as [H|[H|[]]]; [|congruence].
    clear E. induction la' as [|e L IH]; [destruct H|]. simpl in S. inversion S as [|? ? S' F]; subst. destruct H as [->|H]; auto.
    rewrite Forall_forall in F. assert (Q := F (ss_inst st)). simpl in Q. enough (ss_inst st < ss_inst s) by lia. apply Q. rewrite map_app. apply in_or_app. right. left. auto.
  Qed.
  Lemma root_least s z st : In (s, z) la -> In (st, []) la -> ss_inst st <= ss_inst s.
  Proof.
    intros H H0. destruct la_root as (la' & st' & E & _).
    assert (st' = st). { eapply addr_inj; [|exact H0]. rewrite E. apply in_or_app. right. left. auto. } subst st'.
    pose proof (t_desc _ _ _ _ T) as S. rewrite E in H, S. clear E H0.
    apply in_app_or in H as [H|[H|[]]]; [|injection H as -> <-; auto].
    induction la' as [|e L IH]; [destruct H|]. simpl in S. inversion S as [|? ? S' F]; subst. destruct H as [->|H]; auto.
    rewrite Forall_forall in F. assert (Q := F (ss_inst st)). simpl in Q. enough (ss_inst st < ss_inst s) by lia. apply Q. rewrite map_app. apply in_or_app. right. left. auto.
  Qed.

  Lemma kid_step st z m : In (st, z) la -> meth P st m -> forall s zs, In (s, zs) la ->
    (ss_inst s <> 0 /\ ss_parent s = ss_inst st <-> zs = z ++ [ss_pos s]).
  Proof.
    intros Hs Mt s zs H. split.
    - intros [N E]. destruct (t_par _ _ _ _ T s zs H) as [->|(p & zp & m' & Hp & Mp & Ep & Ez & _)].
      + destruct la_root as (la' & r & E' & _ & _ & R0).
        assert (r = s). { eapply addr_inj; [|exact H]. rewrite E'. apply in_or_app. right. left. auto. } subst r.
        pose proof (root_least st z s Hs H). lia.
      + rewrite E in Ep. destruct (inst_inj _ _ _ _ Hs Hp Ep) as [<- <-]. auto.
    - intros Ez. split.
      + assert (0 < ss_inst s); [|lia]. eapply inst_pos; [exact H|]. rewrite Ez. intros F. apply app_eq_nil in F as [_ F]. discriminate.
      + destruct (t_par _ _ _ _ T s zs H) as [E|(p & zp & m' & Hp & Mp & Ep & Ez' & _)].
        * rewrite E in Ez. symmetry in Ez. apply app_eq_nil in Ez as [_ F]. discriminate.
        * rewrite Ez in Ez'. apply app_single_inj2 in Ez' as [<- _]. rewrite Ep. f_equal. eapply addr_inj; eauto.
  Qed.

  Lemma pos_subs st z m s j : In (st, z) la -> meth P st m -> In (s, z ++ [j]) la ->
    ss_pos s = j /\ nth_error (m_subs m) j = Some (ss_task s).
  Proof.
    intros Hs Mt H. destruct (t_par _ _ _ _ T s _ H) as [E|(p & zp & m' & Hp & (mi & M1 & M2) & Ep & Ez' & Nt)].
    - apply app_eq_nil in E as [_ F]. discriminate.
    - apply app_single_inj2 in Ez' as [<- Ej]. split; auto. assert (p = st) by (eapply addr_inj; eauto). subst p.
      destruct Mt as (mi' & M1' & M2'). congruence.
  Qed.

  Lemma kids_spec st z m : In (st, z) la -> meth P st m ->
    let kids := map snd (pair_sort (children l (ss_inst st))) in
    length kids = length (m_subs m) /\
    forall j c, nth_error kids j = Some c <-> exists s, In (s, z ++ [j]) la /\ ss_inst s = c.
  Proof.
    intros Hs Mt. set (ch := children l (ss_inst st)).
    assert (IC : forall j c, In (j, c) ch <-> exists s, In (s, z ++ [j]) la /\ ss_inst s = c).
    { intros j c. unfold ch, children. rewrite in_map_iff. split.
      - intros (s & E & H). apply filter_In in H as [H B]. apply in_l in H as (zs & H). injection E as <- <-.
        apply andb_true_iff in B as [B1 B2]. apply negb_true_iff in B1. apply Nat.eqb_neq in B1. apply Nat.eqb_eq in B2.
        exists s. split; auto. rewrite <- (proj1 (kid_step st z m Hs Mt s zs H) (conj B1 B2)). exact H.
      - intros (s & H & <-). exists s. destruct (pos_subs _ _ _ _ _ Hs Mt H) as [E _]. split; [now rewrite E|]. apply filter_In. split; [apply in_l; eauto|].
        destruct (proj2 (kid_step st z m Hs Mt s _ H)) as [Q1 Q2]; [now rewrite E|].
        apply andb_true_iff. split; [apply negb_true_iff, Nat.eqb_neq; auto|apply Nat.eqb_eq; auto]. }
    assert (ND : NoDup (map fst ch)).
    { unfold ch, children. rewrite map_map. simpl.
      assert (IL : forall s, In s l -> exists zs, In (s, zs) la) by (intros s H; now apply in_l).
      assert (NL : NoDup (map ss_inst l)).
      { unfold l. rewrite map_map. pose proof (t_desc _ _ _ _ T) as S. clear - S. induction S as [|a L S IH F]; constructor; auto.
        intros H. rewrite Forall_forall in F. specialize (F a H). lia. }
      revert IL NL. generalize l as L. induction L as [|s L IH]; intros IL NL; simpl; [constructor|].
      inversion NL as [|? ? N1 N2]; subst. assert (IH' := IH (fun q Hq => IL q (or_intror Hq)) N2).
      destruct (negb _ && _) eqn:B; [|exact IH']. simpl. constructor; [|exact IH'].
      intros H. apply in_map_iff in H as (s' & E & H). apply filter_In in H as [H B'].
      apply andb_true_iff in B as [B1 B2]. apply negb_true_iff in B1. apply Nat.eqb_neq in B1. apply Nat.eqb_eq in B2.
      apply andb_true_iff in B' as [B1' B2']. apply negb_true_iff in B1'. apply Nat.eqb_neq in B1'. apply Nat.eqb_eq in B2'.
      destruct (IL s (or_introl eq_refl)) as (zs & Hz). destruct (IL s' (or_intror H)) as (zs' & Hz').
      assert (Q := proj1 (kid_step st z m Hs Mt s zs Hz) (conj B1 B2)). assert (Q' := proj1 (kid_step st z m Hs Mt s' zs' Hz') (conj B1' B2')).
      rewrite E, <- Q in Q'. subst zs'. assert (s' = s) by (eapply addr_inj; eauto). subst s'. apply N1. now apply in_map. }
    assert (PM := pair_sort_perm ch).
    assert (SQ : map fst (pair_sort ch) = seq 0 (length (m_subs m))).
    { apply sorted_seq; [apply pair_sort_sorted|eapply Permutation_NoDup; [|exact ND]; symmetry; now apply Permutation_map|].
      intros j. assert (X : In j (map fst (pair_sort ch)) <-> In j (map fst ch)).
      { split; apply Permutation_in; [|symmetry]; now apply Permutation_map. }
      rewrite X, in_map_iff. split.
      - intros ([j' c] & <- & H). apply IC in H as (s & H & _). destruct (pos_subs _ _ _ _ _ Hs Mt H) as [_ E].
        assert (j' < length (m_subs m)) by (apply nth_error_Some; congruence). simpl. lia.
      - intros [_ Hj]. destruct (t_cover _ _ _ _ T z m j) as [H|H]; [exists st; auto|lia| |destruct (EM _ H)].
        apply in_map_iff in H as ([s zs] & E & H). simpl in E. subst zs. exists (j, ss_inst s). split; auto. apply IC. eauto. }
    cbv zeta. split.
    - rewrite map_length, <- (map_length fst), SQ. apply seq_length.
    - intros j c. rewrite <- IC. split.
      + intros H. apply (Permutation_in _ PM). 
        destruct (nth_error (pair_sort ch) j) as [[j' c']|] eqn:E.
        * rewrite (map_nth_error snd _ _ E) in H. injection H as <-. 
          pose proof (map_nth_error fst _ _ E) as Q. rewrite SQ in Q. simpl in Q.
          assert (Lj : j < length (m_subs m)) by (rewrite <- (seq_length (length (m_subs m)) 0); apply nth_error_Some; congruence).
          rewrite (nth_error_nth' _ 0) in Q by now rewrite seq_length. rewrite seq_nth in Q by auto. simpl in Q. injection Q as <-.
          eapply nth_error_In; eauto.
        * apply nth_error_None in E. assert (j < length (map snd (pair_sort ch))) by (apply nth_error_Some; congruence). rewrite map_length in *. lia.
      + intros H. apply (Permutation_in _ (Permutation_sym PM)) in H. apply In_nth_error in H as (k & E).
        pose proof (map_nth_error fst _ _ E) as Q. rewrite SQ in Q. simpl in Q.
        assert (Lj : k < length (m_subs m)) by (rewrite <- (seq_length (length (m_subs m)) 0); apply nth_error_Some; congruence).
        rewrite (nth_error_nth' _ 0) in Q by now rewrite seq_length. rewrite seq_nth in Q by auto. simpl in Q. injection Q as <-.
        now rewrite (map_nth_error snd _ _ E).
  Qed.
  Definition acts_of (l : list solstep) : list (nat * nat) := rev (map (fun s => (ss_inst s, ss_task s)) (filter is_act l)).

  Lemma in_rows r : In r (rows_of l) <-> exists st z mi, In (st, z) la /\ ss_method st = Some mi /\
    r = {| rw_id := ss_inst st; rw_task := ss_task st; rw_meth := mi; rw_kids := map snd (pair_sort (children l (ss_inst st))) |}.
  Proof.
    unfold rows_of. rewrite in_flat_map. split.
    - intros (st & H & Hr). apply in_l in H as (z & H). destruct (ss_method st) as [mi|] eqn:M; [|destruct Hr].
      destruct Hr as [<-|[]]. exists st, z, mi. auto.
    - intros (st & z & mi & H & M & ->). exists st. split; [apply in_l; eauto|]. rewrite M. left. auto.
  Qed.
  Lemma in_acts i t : In (i, t) (acts_of l) <-> exists st z, In (st, z) la /\ ss_method st = None /\ i = ss_inst st /\ t = ss_task st.
  Proof.
    unfold acts_of. rewrite <- in_rev, in_map_iff. split.
    - intros (st & E & H). apply filter_In in H as [H A]. apply in_l in H as (z & H). injection E as <- <-.
      unfold is_act in A. destruct (ss_method st) eqn:M; [discriminate|]. eauto 6.
    - intros (st & z & H & M & -> & ->). exists st. split; auto. apply filter_In. split; [apply in_l; eauto|]. unfold is_act. now rewrite M.
  Qed.
  Lemma in_ids i : In i (ids (rows_of l) (acts_of l)) <-> exists st z, In (st, z) la /\ ss_inst st = i.
  Proof.
    unfold ids. rewrite in_app_iff, !in_map_iff. split.
    - intros [(r & <- & H)|([i' t] & <- & H)].
      + apply in_rows in H as (st & z & mi & H & _ & ->). simpl. eauto.
      + apply in_acts in H as (st & z & H & _ & -> & _). simpl. eauto.
    - intros (st & z & H & <-). destruct (ss_method st) as [mi|] eqn:M.
      + left. eexists. split; [|apply in_rows; exists st, z, mi; split; [exact H|split; [exact M|reflexivity]]]. reflexivity.
      + right. exists (ss_inst st, ss_task st). split; auto. apply in_acts. eauto 6.
  Qed.

  Lemma meth_ex st z mi : In (st, z) la -> ss_method st = Some mi -> exists m, meth P st m /\ nth_error (p_methods P) mi = Some m /\ m_task m = ss_task st.
  Proof. intros H M. destruct (t_meth _ _ _ _ T st z mi H M) as (m & G & E). exists m. split; auto. exists mi. auto. Qed.

  Lemma child_spec p c j : child (rows_of l) p c j <-> exists st z m s, In (st, z) la /\ meth P st m /\ ss_inst st = p /\ In (s, z ++ [j]) la /\ ss_inst s = c.
  Proof.
    split.
    - intros (r & H & <- & K). apply in_rows in H as (st & z & mi & H & M & ->). simpl in *.
      destruct (meth_ex st z mi H M) as (m & Mt & _). destruct (kids_spec st z m H Mt) as [_ KS]. apply KS in K as (s & Hs & <-).
      exists st, z, m, s. auto.
    - intros (st & z & m & s & H & Mt & <- & Hs & <-). destruct Mt as (mi & M & G). assert (Mt : meth P st m) by (exists mi; auto).
      eexists. split; [apply in_rows; exists st, z, mi; split; [exact H|split; [exact M|reflexivity]]|].
      simpl. split; auto. apply (proj2 (kids_spec st z m H Mt)). eauto.
  Qed.

  Lemma below_prefix p c : below (rows_of l) p c -> forall s z s' z', In (s, z) la -> ss_inst s = p -> In (s', z') la -> ss_inst s' = c -> prefix z z'.
  Proof.
    intros H. apply clos_rt_rt1n in H. induction H as [x|x y w (j & Hc) H IH]; intros s z s' z' Hs Es Hs' Es'.
    - destruct (inst_inj _ _ _ _ Hs Hs' (eq_trans Es (eq_sym Es'))) as [_ <-]. exists []. now rewrite app_nil_r.
    - apply child_spec in Hc as (st & zz & m & q & Hst & _ & Est & Hq & Eq).
      destruct (inst_inj _ _ _ _ Hs Hst (eq_trans Es (eq_sym Est))) as [<- <-].
      destruct (IH q (z ++ [j]) s' z' Hq Eq Hs' Es') as [u ->]. exists ([j] ++ u). now rewrite app_assoc.
  Qed.

  Lemma acts_sorted : StronglySorted lt (map fst (acts_of l)).
  Proof.
    assert (SS : StronglySorted (fun a b => b < a) (map ss_inst (filter is_act l))).
    { pose proof (t_desc _ _ _ _ T) as S. unfold l. revert S. generalize la as L. induction L as [|[s z] L IH]; intros S; simpl; [constructor|].
      simpl in S. inversion S as [|? ? S' F]; subst. destruct (is_act s); auto. simpl. constructor; auto.
      rewrite Forall_forall in *. intros i Hi. apply F. apply in_map_iff in Hi as (q & <- & Hq). apply filter_In in Hq as [Hq _].
      apply in_map_iff in Hq as (q' & <- & Hq'). apply in_map_iff. eauto. }
    unfold acts_of. rewrite map_rev, map_map. change (map (fun x => fst (ss_inst x, ss_task x)) (filter is_act l)) with (map ss_inst (filter is_act l)).
    revert SS. generalize (map ss_inst (filter is_act l)) as q.
    induction q as [|a q IH]; intros SS; simpl; [constructor|]. inversion SS as [|? ? S' F]; subst.
    assert (H : forall q a, StronglySorted lt q -> (forall x, In x q -> x < a) -> StronglySorted lt (q ++ [a])).
    { clear. induction q as [|b q IH]; intros a S H; simpl; [repeat constructor|]. inversion S as [|? ? S' F]; subst. constructor; [apply IH; auto; intros x Hx; apply H; right; auto|].
      rewrite Forall_forall in *. intros x Hx. apply in_app_or in Hx as [Hx|[<-|[]]]; auto. apply H. left; auto. }
    apply H; [now apply IH|]. intros x Hx. apply in_rev in Hx. rewrite Forall_forall in F. auto.
  Qed.

  Theorem goal_tree root : In (root, []) la -> tree_ok P (ss_inst root) (rows_of l) (acts_of l).
  Proof.
    intros HR. split.
    - (* numbers are distinct *)
      assert (NL : NoDup (map ss_inst l)).
      { unfold l. rewrite map_map. pose proof (t_desc _ _ _ _ T) as S. clear - S. induction S as [|a L S IH F]; constructor; auto.
        intros H. rewrite Forall_forall in F. specialize (F a H). lia. }
      assert (E1 : map rw_id (rows_of l) = map ss_inst (filter (fun s => negb (is_act s)) l)).
      { unfold rows_of.
        assert (Q : forall K L, map rw_id (flat_map (fun s => match ss_method s with Some mi => [{| rw_id := ss_inst s; rw_task := ss_task s; rw_meth := mi; rw_kids := K s : list nat |}] | None => [] end) L) = map ss_inst (filter (fun s => negb (is_act s)) L)).
        { intros K. induction L as [|s L IH]; simpl; auto. unfold is_act at 1. destruct (ss_method s); simpl; rewrite ?map_app; simpl; now rewrite IH. }
        apply (Q (fun s => map snd (pair_sort (children l (ss_inst s)))) l). }
      assert (E2 : Permutation (map fst (acts_of l)) (map ss_inst (filter is_act l))).
      { unfold acts_of. rewrite map_rev, map_map. change (map (fun x => fst (ss_inst x, ss_task x)) (filter is_act l)) with (map ss_inst (filter is_act l)). symmetry. apply Permutation_rev. }
      unfold ids. rewrite E1. eapply Permutation_NoDup; [apply Permutation_app_head; symmetry; exact E2|].
      rewrite <- map_app. eapply Permutation_NoDup; [|exact NL]. apply Permutation_map.
      clear. induction l as [|s L IH]; simpl; [constructor|]. destruct (is_act s); simpl; [now apply Permutation_cons_app|now constructor].
    - intros i t H. apply in_acts in H as (st & z & H & M & -> & ->). eapply (t_prim _ _ _ _ T); eauto.
    - destruct la_root as (la' & st & E & Q1 & Q2 & _). assert (HS : In (st, []) la) by (rewrite E; apply in_or_app; right; left; auto).
      assert (root = st) by (eapply addr_inj; eauto). subst st. destruct (ss_method root) as [mi|] eqn:M; [|congruence].
      eexists. split; [apply in_rows; exists root, [], mi; split; [exact HR|split; [exact M|reflexivity]]|]. auto.
    - intros r H. apply in_rows in H as (st & z & mi & H & M & ->). destruct (meth_ex st z mi H M) as (m & Mt & G & Em). exists m. simpl.
      destruct (kids_spec st z m H Mt) as [KL KS]. repeat (split; [auto|]). intros j c Hc. apply KS in Hc as (s & Hs & <-).
      destruct (pos_subs _ _ _ _ _ H Mt Hs) as [_ Et]. exists (ss_task s). split; auto. unfold named. destruct (ss_method s) as [mi'|] eqn:M'.
      + right. eexists. split; [apply in_rows; exists s, (z ++ [j]), mi'; split; [exact Hs|split; [exact M'|reflexivity]]|]. auto.
      + left. apply in_acts. eauto 6.
    - intros i Hi NR. apply in_ids in Hi as (st & z & H & <-). destruct (t_par _ _ _ _ T st z H) as [->|(p & zp & m & Hp & Mp & _ & -> & _)].
      + destruct NR. f_equal. eapply addr_inj; eauto.
      + exists (ss_inst p), (ss_pos st). apply child_spec. exists p, zp, m, st. auto.
    - intros i p j p' j' H H'. apply child_spec in H as (st & z & m & s & H & Mt & <- & Hs & Es). apply child_spec in H' as (st' & z' & m' & s' & H' & Mt' & <- & Hs' & Es').
      destruct (inst_inj _ _ _ _ Hs Hs' (eq_trans Es (eq_sym Es'))) as [_ EZ]. apply app_single_inj2 in EZ as [<- <-]. split; auto. f_equal. eapply addr_inj; eauto.
    - intros p j H. apply child_spec in H as (st & z & m & s & H & Mt & <- & Hs & Es). destruct (inst_inj _ _ _ _ Hs HR Es) as [_ EZ]. apply app_eq_nil in EZ as [_ F]. discriminate.
    - intros i Hi. apply in_ids in Hi as (st & z & H & <-). revert st H. induction z as [|j z IH] using rev_ind; intros st H.
      + replace st with root by (eapply addr_inj; eauto). apply rt_refl.
      + destruct (t_par _ _ _ _ T st _ H) as [E|(p & zp & m & Hp & Mp & _ & E & _)]; [apply app_eq_nil in E as [_ F]; discriminate|].
        apply app_single_inj2 in E as [<- E]. eapply rt_trans; [apply (IH p Hp)|]. apply rt_step. exists j. apply child_spec. exists p, z, m, st. auto.
    - intros q1 q2 a b Lq Ha Hb (r & m & j & k & ca & cb & Hr & Gm & Lt & Ka & Kb & Ba & Bb).
      assert (Lab : a < b).
      { pose proof acts_sorted as S. revert S q1 q2 Lq Ha Hb. generalize (map fst (acts_of l)) as L. induction L as [|x L IH]; intros S q1 q2 Lq Ha Hb; [destruct q1; discriminate|].
        inversion S as [|? ? S' F]; subst. rewrite Forall_forall in F. destruct q2 as [|q2]; [lia|]. destruct q1 as [|q1].
        - injection Ha as ->. apply F. eapply nth_error_In; eauto.
        - eapply IH; [exact S'| |exact Ha|exact Hb]. lia. }
      apply nth_error_In in Ha, Hb. apply in_map_iff in Ha as ([ia ta] & Ea & Ha). apply in_map_iff in Hb as ([ib tb] & Eb & Hb). simpl in Ea, Eb. subst ia ib.
      apply in_acts in Ha as (sa & za & Ha & Ma & -> & _). apply in_acts in Hb as (sb & zb & Hb & Mb & -> & _).
      apply in_rows in Hr as (st & z & mi & H & M & ->). simpl in *. destruct (meth_ex st z mi H M) as (m' & Mt & G & _).
      assert (m' = m) by congruence. subst m'. destruct (kids_spec st z m H Mt) as [_ KS].
      apply KS in Ka as (sj & Hj & <-). apply KS in Kb as (sk & Hk & <-).
      destruct (below_prefix _ _ Ba _ _ _ _ Hj eq_refl Hb eq_refl) as [u Eu]. destruct (below_prefix _ _ Bb _ _ _ _ Hk eq_refl Ha eq_refl) as [v Ev].
      apply (t_ord3 _ _ _ _ T sa za sb zb Ha Hb Ma Mb Lab). exists z, m, j, k, u, v. split; [exists st; auto|].
      rewrite <- app_assoc in Eu, Ev. auto.
  Qed.
End Goal.

Lemma history_tree P C w l n : wf_problem P -> (forall l, Permutation l (c_perm C l)) -> history P C w l -> In n l -> isGoal P n = Some true ->
  exists root, pr_root (extract P n) = Some root /\ tree_ok P root (pr_rows (extract P n)) (pr_acts (extract P n)) /\
    map snd (pr_acts (extract P n)) = printed_plan n.
Proof.
  intros WP HP H Hn G.
  assert (Q : TQ P (w_heap w) (w_inst w) n).
  { apply (history_pres P C (TQ P)) with (l := l); auto.
    - intros fuel a b i c d. apply TQ_apply; auto.
    - intros h i q. apply TQ_unreach.
    - intros a b i mi c d x tk. apply TQ_decompose; auto.
    - intros h e i i' q q2 A B. eapply TQ_ext; auto. apply B.
    - intros a b. apply TQ_init; auto. }
  destruct Q as (W & s & tn & pi & la & R & T & HLk & ML).
  assert (EM : forall x, ~ t_in tn x).
  { intros x Hx. apply (r_in _ _ _ _ _ _ R) in Hx as (i & (r & Hr & _) & _). unfold isGoal in G. unfold heads in Hr.
    destruct (n_abs n); [|discriminate]. destruct (n_prim n); [|discriminate]. destruct Hr. }
  destruct (la_root P _ tn la T EM) as (la' & st & E & Q1 & Q2 & Q3).
  assert (HS : In (st, []) la) by (rewrite E; apply in_or_app; right; left; auto).
  destruct (ss_method st) as [mi|] eqn:M; [|congruence].
  destruct (t_meth _ _ _ _ T st [] mi HS M) as (m & Gm & Em).
  assert (LN : exists a b r, n_sol n = a :: b :: r).
  { rewrite <- ML. destruct (t_cover _ _ _ _ T [] m 0) as [F|F].
    - exists st. split; auto. exists mi. auto.
    - pose proof (wfm_nonempty _ _ (wf_methods _ WP m (nth_error_In _ _ Gm))). destruct (m_subs m); [congruence|]. simpl. lia.
    - rewrite E. destruct la' as [|e1 [|e2 la']]; simpl; eauto. rewrite E in F. simpl in F. destruct F as [F|[]]. discriminate.
    - destruct (EM _ F). }
  destruct LN as (a & b & r & LN).
  exists (ss_inst st). unfold extract, printed_plan. rewrite LN. rewrite <- LN. cbn [pr_root pr_rows pr_acts]. split; [|split].
  - rewrite <- ML, E, map_app, fold_left_app. simpl. rewrite M, Q1, Nat.eqb_refl. reflexivity.
  - rewrite <- ML. exact (goal_tree P _ tn la T EM st HS).
  - rewrite map_rev, map_map. reflexivity.
Qed.
