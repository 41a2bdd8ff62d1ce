(** Runs of the operators without conditional effects on positions: soundness and completeness for task networks. *)
From Coq Require Import Relations.
From Verif Require Import Base Htn_problem Htn_spec Htn_sem Htn_iso Htn_proof Sas_model Push_model Push_net Push_sys Push_run Strips_model Strips_spec Strips_net Strips_sys.

(** ** hasNoLastTask *)
Definition nlm (m : method) : bool := no_last (length (m_subs m)) (mord m).

Section Lower.
  Variable (m : method).
  Notation nn := (length (m_subs m)).
  Hypothesis (OR : forall a b, In (a, b) (m_ord m) -> a < b < nn).
  Definition below (x : nat) : Prop := x < nn /\ (nn - 1 - x = 0 \/ m_lt m 0 (nn - 1 - x)).
  Lemma lower_below l : (forall x, In x l -> below x) -> forall x, In x (lower_step (mord m) l) -> below x.
  Proof.
    unfold lower_step. assert (Q : forall e, In e (mord m) -> exists a b, In (a, b) (m_ord m) /\ e = (nn - 1 - a, nn - 1 - b)) by (unfold mord; intros e I; apply in_map_iff in I as ([a b] & <- & I); eauto).
    revert l. induction (mord m) as [|e r IH]; intros l H; cbn [fold_left]; auto. apply IH; [intros; apply Q; now right|]. destruct (memb (fst e) l) eqn:M; auto. intros x [<-|I]; auto.
    apply memb_In, H in M as [L M]. destruct (Q e (or_introl eq_refl)) as (a & b & I & ->). cbn [fst snd] in *. assert (X := OR a b I). split; [lia|]. right. replace (nn - 1 - (nn - 1 - b)) with b by lia. replace (nn - 1 - (nn - 1 - a)) with a in M by lia.
    destruct M as [->|M]; [now apply t_step|]. apply t_trans with a; auto. now apply t_step.
  Qed.
  Lemma no_last_first : nlm m = false -> forall a, 0 < a < nn -> m_lt m 0 a.
  Proof.
    unfold nlm, no_last. intros E a La. destruct (Nat.leb_spec nn 1); [lia|]. destruct (length (mord m) <? nn - 1); [discriminate|]. apply negb_false_iff in E. rewrite forallb_forall in E. specialize (E (nn - 1 - a) ltac:(apply in_seq; lia)). apply memb_In in E.
    assert (X : forall k x, In x (Nat.iter k (lower_step (mord m)) [nn - 1]) -> below x). { induction k as [|k IH]; cbn [Nat.iter]; [intros x [<-|[]]; split; [lia|left; lia]|]. now apply lower_below. }
    apply X in E as [_ [E|E]]; [lia|]. now replace (nn - 1 - (nn - 1 - a)) with a in E by lia.
  Qed.
End Lower.

Inductive bop := BEmpty (j : nat) | BAct (i j : nat) | BMeth (i j : nat) (raw : list nat).
Definition bacts (l : list bop) : list nat := concat (map (fun o => match o with BAct i _ => [i] | _ => [] end) l).
Definition bempties (l : list bop) : nat := list_sum (map (fun o => match o with BEmpty _ => 1 | _ => 0 end) l).

Section Run.
  Variables (P : problem) (pgb : nat).
  Hypotheses (WF : wf_problem P) (AF : forall t, t < length (p_cost P) -> primitive P t).
  Hypothesis (TOP : forall m, In m (p_methods P) -> forall a b, In (a, b) (m_ord m) -> a < b).
  Hypothesis (LF : last_after_first P).
  Notation act_q := (act_q pgb). Notation empty_q := (empty_q pgb). Notation ok := (ok pgb). Notation net := (net pgb).
  Definition mqop (m : method) (j : nat) (raw : list nat) : qop := meth_q pgb m (rev (m_subs m)) (mord m) (nlm m) j raw.
  (** A choice of positions *)
  Record choice (m : method) (raw : list nat) : Prop := {
    ch_len : length raw = if nlm m then length (m_subs m) else length (m_subs m) - 1;
    ch_inc : increasing raw;
    ch_lt : forall x, In x raw -> x < pgb - 1 }.

  Inductive brun : state -> conf -> list bop -> state -> conf -> Prop :=
  | br_nil s c : brun s c [] s c
  | br_empty s c j l s' c' : j < pgb -> qpre (empty_q j) c -> brun s (qeff (empty_q j) c) l s' c' -> brun s c (BEmpty j :: l) s' c'
  | br_act s c i j l s' c' : i < length (p_cost P) -> j < pgb -> applicable P s i -> qpre (act_q i j) c -> brun (result P s i) (qeff (act_q i j) c) l s' c' -> brun s c (BAct i j :: l) s' c'
  | br_meth s c i m j raw l s' c' : nth_error (p_methods P) i = Some m -> j < pgb -> choice m raw -> qpre (mqop m j raw) c -> brun s (qeff (mqop m j raw) c) l s' c' -> brun s c (BMeth i j raw :: l) s' c'.

  Lemma br_app s c l1 s1 c1 l2 s2 c2 : brun s c l1 s1 c1 -> brun s1 c1 l2 s2 c2 -> brun s c (l1 ++ l2) s2 c2.
  Proof. induction 1; intros R; cbn; auto; econstructor; eauto. Qed.

  Lemma ord_lt m : In m (p_methods P) -> forall a b, In (a, b) (m_ord m) -> a < b < length (m_subs m).
  Proof. intros I a b J. split; [eapply TOP; eauto|]. apply (wfm_ord P m (wf_methods P WF m I) a b J). Qed.
  Lemma last_ok m : In m (p_methods P) -> nlm m = false -> forall a, S a < length (m_subs m) -> m_lt m a (length (m_subs m) - 1).
  Proof. intros I E. apply LF; auto. apply no_last_first; auto. now apply ord_lt. Qed.
  Lemma meth_step m j raw c : In m (p_methods P) -> j < pgb -> choice m raw -> ok c -> qpre (mqop m j raw) c ->
    ok (qeff (mqop m j raw) c) /\ (exists f, iso f (decF (net c) [j] m) (net (qeff (mqop m j raw) c))) /\ minimal (net c) [j] /\ c (ST j) = m_task m + 2.
  Proof. intros I Lj [A B D] OK PR. apply (meth_ok pgb m (nlm m) j raw c (subs_pos P WF m I) Lj (ord_lt m I) A B D (last_ok m I) OK PR). Qed.

  Lemma brun_sound s c l s' c' : brun s c l s' c' -> ok c -> (forall p, p < pgb -> c' (ST p) = 0) -> goal_state P s' -> exists k, solvesk P s (net c) k (bacts l).
  Proof.
    assert (AC := wf_acyclic P WF). induction 1 as [s c|s c j l s' c' Lj PR R IH|s c i j l s' c' Li Lj AP PR R IH|s c i m j raw l s' c' EM Lj CH PR R IH]; intros OK Z G.
    - exists 0. apply solvesk_done; auto. intros x (p & _ & L & N). rewrite Z in N by auto. lia.
    - apply (ready_iff pgb c j 1 Lj) in PR. destruct (leave_ok pgb c j 1 _ Lj (empty_leaves pgb j Lj) OK PR) as (OK' & _ & T). destruct (IH OK' Z G) as (k & SL). exists k. unfold bacts. cbn [map concat app].
      apply (solvesk_ext P s s (net (qeff (empty_q j) c)) (net c) k _ (fun f => iff_refl _) (teq_sym _ _ (T eq_refl))). exact SL.
    - apply (ready_iff pgb c j (i + 2) Lj) in PR. destruct (leave_ok pgb c j (i + 2) _ Lj (act_leaves pgb i j Lj) OK PR) as (OK' & T & _). destruct (T ltac:(lia)) as [T1 MIN]. destruct (IH OK' Z G) as (k & SL). exists (S k). unfold bacts. cbn [map concat app]. assert (E : c (ST j) = i + 2) by apply PR. replace i with (t_lab (net c) [j]) by (cbn; lia).
      apply solvesk_act; auto; [apply net_wf, OK| | |]; replace (t_lab (net c) [j]) with i by (cbn; lia); auto.
      apply (solvesk_ext P _ (result P s i) (net (qeff (act_q i j) c)) (minus (net c) [j]) k _ (fun f => iff_refl _) (teq_sym _ _ T1)). exact SL.
    - assert (IM : In m (p_methods P)) by (eapply nth_error_In; eauto). destruct (meth_step m j raw c IM Lj CH OK PR) as (OK' & (f & IF) & MIN & E). destruct (IH OK' Z G) as (k & SL). exists (S k). unfold bacts. cbn [map concat app].
      assert (W := net_wf pgb c (k_rank _ _ OK)). assert (D : decomposes P (net c) [j] m (decF (net c) [j] m)) by (apply decF_decomposes; auto; [apply MIN|cbn; lia]).
      apply (solvesk_dec P s (net c) [j] m (decF (net c) [j] m)); auto. refine (solvesk_iso P s s _ (decF (net c) [j] m) k _ AC _ _ _ SL).
      + apply net_wf, OK'.
      + eapply decomposes_wf; eauto.
      + split; [tauto|]. exists (fun x y => f y x). now apply iso_sym.
  Qed.

  (** ** Completeness *)
  Notation occ := Push_run.occ.
  Definition count (c : conf) : nat := length (filter (occ c) (seq 0 pgb)).
  Record inv (c : conf) : Prop := {
    i_ok : ok c;
    i_lab : forall p, p < pgb -> c (ST p) <= ntasks P + 1;
    i_mark : forall p, p < pgb -> c (SK p) = if occ c p then 1 else 0 }.

  Lemma nodup_seq_filter f a n : NoDup (filter f (seq a n)). Proof. apply NoDup_filter, seq_NoDup. Qed.
  Lemma leave_inv c j b es : j < pgb -> leaves pgb j es -> inv c -> ready pgb c j b -> 1 <= b -> inv (upd es c) /\ count (upd es c) < count c.
  Proof.
    intros Lj LE IN RD Lb. destruct (leave_ok pgb c j b es Lj LE (i_ok c IN) RD) as (OK' & _). destruct (leave_val pgb c j es Lj LE) as (V1 & _ & V3).
    assert (OCC : forall p, p < pgb -> occ (upd es c) p = if p =? j then false else occ c p) by (intros p Lp; unfold Push_run.occ; rewrite V1 by auto; destruct (p =? j); auto). split; [split; auto|].
    - intros p Lp. rewrite V1 by auto. destruct (p =? j); [lia|]. now apply (i_lab c IN).
    - intros p Lp. rewrite V3, OCC by auto. destruct (p =? j); auto. now apply (i_mark c IN).
    - unfold count. assert (X : length (j :: filter (occ (upd es c)) (seq 0 pgb)) <= length (filter (occ c) (seq 0 pgb))); [|cbn [length] in X; lia]. apply NoDup_incl_length.
      + constructor; [|apply nodup_seq_filter]. rewrite filter_In, in_seq. intros [_ H]. rewrite OCC, Nat.eqb_refl in H by auto. discriminate.
      + intros p [<-|I]; apply filter_In.
        * split; [apply in_seq; lia|]. apply occ_true. destruct RD as [-> _]. lia.
        * apply filter_In in I as [I H]. split; auto. apply in_seq in I. rewrite OCC in H by lia. destruct (p =? j); [discriminate|auto].
  Qed.

  Definition settled (c : conf) : Prop := forall p, p < pgb -> c (ST p) = 1 -> exists k, edge pgb c k p.
  Lemma teq_trans a b d : teq a b -> teq b d -> teq a d.
  Proof. intros [A1 A2 A3] [B1 B2 B3]. split; [intros x; now rewrite A1|intros x I; rewrite A2 by auto; apply B2, A1, I|intros x y; now rewrite A3]. Qed.
  Lemma teq_refl' a : teq a a. Proof. split; intros; tauto. Qed.

  Lemma flush s : forall M c, count c <= M -> inv c -> exists l c', brun s c l s c' /\ bacts l = [] /\ inv c' /\ teq (net c) (net c') /\ count c' <= count c /\ settled c'.
  Proof.
    induction M as [M IH] using lt_wf_ind. intros c LM IN.
    destruct (find (fun j => ((c (ST j) =? 1) && forallb (fun k => (k =? j) || negb (c (SC k j) =? 1)) (seq 0 pgb))%bool) (seq 0 pgb)) as [j|] eqn:F.
    - apply find_some in F as [I F]. apply in_seq in I. apply andb_true_iff in F as [F1 F2]. apply Nat.eqb_eq in F1. rewrite forallb_forall in F2. assert (Lj : j < pgb) by lia.
      assert (RD : ready pgb c j 1). { split; auto. intros k Lk N. specialize (F2 k ltac:(apply in_seq; lia)). apply orb_true_iff in F2 as [F2|F2]; [apply Nat.eqb_eq in F2; contradiction|]. apply negb_true_iff, Nat.eqb_neq in F2. assert (X := k_bin _ _ (i_ok c IN) k j Lk Lj N). lia. }
      destruct (leave_inv c j 1 _ Lj (empty_leaves pgb j Lj) IN RD (le_n _)) as [IN' LT]. destruct (leave_ok pgb c j 1 _ Lj (empty_leaves pgb j Lj) (i_ok c IN) RD) as (_ & _ & T).
      destruct (IH (count (qeff (empty_q j) c)) ltac:(unfold qeff; lia) (qeff (empty_q j) c) (le_n _) IN') as (l & c' & R & A & IN2 & T2 & CN & ST).
      exists (BEmpty j :: l), c'. split; [constructor; auto; intros p Ip; now apply (proj2 (ready_iff pgb c j 1 Lj) RD)|]. split; auto. split; auto. split; [eapply teq_trans; [apply (T eq_refl)|exact T2]|]. split; auto. unfold qeff in CN. lia.
    - exists [], c. split; [constructor|]. split; auto. split; auto. split; [apply teq_refl'|]. split; auto. intros p Lp E1. assert (X := find_none _ _ F p ltac:(apply in_seq; lia)). cbn beta in X. rewrite E1, Nat.eqb_refl in X. cbn [andb] in X.
      destruct (existsb (fun k => (negb (k =? p) && (c (SC k p) =? 1))%bool) (seq 0 pgb)) eqn:EX.
      + apply existsb_exists in EX as (k & I & H). apply in_seq in I. apply andb_true_iff in H as [H1 H2]. apply negb_true_iff, Nat.eqb_neq in H1. apply Nat.eqb_eq in H2. exists k. repeat split; auto; lia.
      + exfalso. assert (Y : forallb (fun k => (k =? p) || negb (c (SC k p) =? 1))%bool (seq 0 pgb) = true); [|congruence]. apply forallb_forall. intros k I. destruct (k =? p) eqn:E; auto. cbn [orb]. apply negb_true_iff.
        destruct (c (SC k p) =? 1) eqn:E'; auto. assert (Z : existsb (fun k => (negb (k =? p) && (c (SC k p) =? 1))%bool) (seq 0 pgb) = true); [|congruence]. apply existsb_exists. exists k. split; auto. now rewrite E, E'.
  Qed.

  (** Free positions for the subtasks *)
  Lemma pick_free (f : nat -> bool) n k : k <= length (filter f (seq 0 n)) -> exists raw, length raw = k /\ increasing raw /\ (forall x, In x raw -> x < n /\ f x = true) /\ (forall x, x < S (last raw 0) -> raw <> [] -> f x = true -> In x raw).
  Proof.
    intros L. assert (X : exists i, i <= n /\ length (filter f (seq 0 i)) = k).
    { induction n as [|n IH]; [exists 0; cbn in *; lia|]. rewrite seq_S, filter_app, app_length in L. destruct (Nat.le_gt_cases k (length (filter f (seq 0 n)))) as [Q|Q]; [destruct (IH Q) as (i & Li & E); exists i; split; auto; lia|].
      exists (S n). split; auto. rewrite seq_S, filter_app, app_length. cbn [plus filter length] in *. destruct (f n); cbn [length] in *; lia. }
    destruct X as (i & Li & E). exists (filter f (seq 0 i)). split; auto. split; [|split].
    - clear. assert (X : forall n a i j x y, i < j -> nth_error (filter f (seq a n)) i = Some x -> nth_error (filter f (seq a n)) j = Some y -> x < y); [|intros j k x y; apply X]. induction n as [|n IH]; intros a i' j' x y L A B; cbn in A; [destruct i'; discriminate|].
      cbn [seq filter] in *. destruct (f a); [|eapply IH; eauto]. destruct i' as [|i'], j' as [|j']; try lia; cbn [nth_error] in *; [|eapply (IH (S a) i' j'); eauto; lia]. injection A as <-. apply nth_error_In, filter_In in B as [B _]. apply in_seq in B. lia.
    - intros x I. apply filter_In in I as [I H]. apply in_seq in I. split; auto. lia.
    - intros x Lx NE H. apply filter_In. split; auto. assert (Y : In (last (filter f (seq 0 i)) 0) (filter f (seq 0 i))) by (destruct (exists_last NE) as (l & z & Ez); rewrite Ez, last_last; apply in_or_app; right; now left).
      apply filter_In in Y as [Y _]. apply in_seq in Y. apply in_seq. lia.
  Qed.
  Lemma filter_both (f : nat -> bool) l : length (filter f l) + length (filter (fun x => negb (f x)) l) = length l.
  Proof. induction l as [|x l IH]; cbn; auto. destruct (f x); cbn; lia. Qed.
  Lemma free_count c j : j < pgb -> occ c j = true -> pgb <= length (filter (fun x => negb (occ c (skip j x))) (seq 0 (pgb - 1))) + count c.
  Proof.
    intros Lj OJ. assert (X : length (filter (fun p => negb (occ c p)) (seq 0 pgb)) <= length (map (skip j) (filter (fun x => negb (occ c (skip j x))) (seq 0 (pgb - 1))))).
    { apply NoDup_incl_length; [apply nodup_seq_filter|]. intros p I. apply filter_In in I as [I H]. apply in_seq in I. destruct (skip_surj j p pgb) as (x & Lx & <-); auto; [lia|intros ->; rewrite OJ in H; discriminate|]. apply in_map, filter_In. split; auto. apply in_seq. lia. }
    rewrite map_length in X. unfold count. assert (Y := filter_both (occ c) (seq 0 pgb)). rewrite seq_length in Y. lia.
  Qed.
  Lemma pos_count c p : p < pgb -> occ c p = true -> 1 <= count c.
  Proof. intros L O. unfold count. assert (I : In p (filter (occ c) (seq 0 pgb))) by (apply filter_In; split; auto; apply in_seq; lia). destruct (filter (occ c) (seq 0 pgb)); [destruct I|cbn; lia]. Qed.

  (** An upper bound for the number of subtasks *)
  Variable D : nat.
  Hypothesis (SIZE : forall m, In m (p_methods P) -> length (m_subs m) <= D).

  Lemma minimal_ready c j : inv c -> settled c -> j < pgb -> minimal (net c) [j] -> ready pgb c j (c (ST j)).
  Proof.
    intros IN SE Lj M. destruct (i_ok c IN) as [C R B]. split; auto. intros k Lk N. assert (X := B k j Lk Lj N). destruct (Nat.eq_dec (c (SC k j)) 1) as [E|E]; [|lia]. exfalso. apply (minimal_edge pgb c j C R SE M k). repeat split; auto.
  Qed.
  Lemma settled_empty c : inv c -> settled c -> (forall x, ~ t_in (net c) x) -> forall p, p < pgb -> c (ST p) = 0.
  Proof.
    intros IN SE H. destruct (i_ok c IN) as [C (r & R) B]. assert (X : forall n p, r p < n -> p < pgb -> c (ST p) = 0); [|intros p; apply (X (S (r p))); lia].
    induction n as [|n IH]; intros p L Lp; [lia|]. destruct (Nat.eq_dec (c (ST p)) 0) as [|N0]; auto. exfalso. destruct (Nat.eq_dec (c (ST p)) 1) as [E1|N1].
    - destruct (SE p Lp E1) as (k & E). assert (Y := R k p E). assert (Z := proj1 (C k p E)). destruct E as (Lk & _). apply Z, IH; auto. lia.
    - apply (H [p]). exists p. repeat split; auto. lia.
  Qed.

  Lemma brun_complete k : forall s c plan, inv c -> count c + k * D <= pgb -> solvesk P s (net c) k plan ->
    exists l s' c', brun s c l s' c' /\ bacts l = plan /\ goal_state P s' /\ forall p, p < pgb -> c' (ST p) = 0.
  Proof.
    assert (AC := wf_acyclic P WF). assert (NE := wf_nonempty P WF). assert (AB := wf_abstract P WF).
    induction k as [k IH] using lt_wf_ind. intros s c00 plan IN00 BD00 SOL00. destruct (flush s _ c00 (le_n _) IN00) as (l0 & c & R0 & A0 & IN & T0 & CN & SE).
    assert (SOL : solvesk P s (net c) k plan) by (eapply (solvesk_ext P s s (net c00)); eauto; tauto). assert (BD : count c + k * D <= pgb) by lia.
    assert (PRF : (exists l s' c', brun s c l s' c' /\ bacts l = plan /\ goal_state P s' /\ forall p, p < pgb -> c' (ST p) = 0) -> exists l s' c', brun s c00 l s' c' /\ bacts l = plan /\ goal_state P s' /\ forall p, p < pgb -> c' (ST p) = 0).
    { intros (l & s' & c' & R & A & Q). exists (l0 ++ l), s', c'. split; [eapply br_app; eauto|]. split; auto. unfold bacts in *. now rewrite map_app, concat_app, A0, A. }
    apply PRF. clear PRF R0 A0 T0 CN BD00 SOL00 IN00 c00 l0.
    assert (W := net_wf pgb c (k_rank _ _ (i_ok c IN))). destruct (find (fun p => 2 <=? c (ST p)) (seq 0 pgb)) as [p0|] eqn:F0.
    2:{ assert (EM : forall x, ~ t_in (net c) x). { intros x (p & _ & Lp & N). assert (X := find_none _ _ F0 p ltac:(apply in_seq; lia)). cbn beta in X. apply Nat.leb_gt in X. lia. }
        destruct (solvesk_empty P s (net c) k plan AC W NE EM SOL) as [-> G]. exists [], s, c. split; [constructor|]. split; auto. split; auto. now apply settled_empty. }
    destruct (find (fun j => forallb (fun k => (k =? j) || negb (c (SC k j) =? 1)) (seq 0 pgb) && (2 <=? c (ST j)) && match nth_error (p_prim P) (c (ST j) - 2) with Some true => false | _ => true end)%bool (seq 0 pgb)) as [j|] eqn:F.
    - (* an abstract task that can be processed *)
      apply find_some in F as [I F]. apply in_seq in I. assert (Lj : j < pgb) by lia. apply andb_true_iff in F as [F F2]. apply andb_true_iff in F as [F1 FR]. apply Nat.leb_le in FR. rewrite forallb_forall in F1.
      assert (RD : ready pgb c j (c (ST j))). { split; auto. intros q Lq N. specialize (F1 q ltac:(apply in_seq; lia)). apply orb_true_iff in F1 as [F1|F1]; [apply Nat.eqb_eq in F1; contradiction|]. apply negb_true_iff, Nat.eqb_neq in F1. assert (X := k_bin _ _ (i_ok c IN) q j Lq Lj N). lia. }
      assert (MIN : minimal (net c) [j]) by (apply net_minimal; auto; intros q; eapply ready_edge; eauto).
      assert (NP : ~ primitive P (t_lab (net c) [j])) by (unfold primitive; cbn; intros X; rewrite X in F2; discriminate).
      destruct (solvesk_dec_complete P s (net c) [j] k plan AC W (proj1 MIN) NP SOL) as (m & tn & k' & -> & DC & S1).
      assert (IM := d_method _ _ _ _ _ DC). destruct (In_nth_error _ _ IM) as (i & EM). assert (LB := d_lab _ _ _ _ _ DC). cbn in LB. assert (Em : c (ST j) = m_task m + 2) by lia. assert (Z1 := subs_pos P WF m IM). assert (Z2 := SIZE m IM).
      assert (OJ : occ c j = true) by (apply occ_true; lia). set (kk := if nlm m then length (m_subs m) else length (m_subs m) - 1). assert (Lk : kk <= length (m_subs m)) by (unfold kk; destruct (nlm m); lia).
      destruct (pick_free (fun x => negb (occ c (skip j x))) (pgb - 1) kk) as (raw & Lr & INC & FRE & DWN). { assert (X := free_count c j Lj OJ). nia. }
      assert (CH : choice m raw) by (split; auto; intros x Ix; now apply FRE). assert (PRE : qpre (mqop m j raw) c).
      { intros p J. unfold mqop, meth_q in J. cbn [fst] in J. apply in_app_or in J as [J|J].
        - apply (proj2 (ready_iff pgb c j (m_task m + 2) Lj)); auto. now rewrite <- Em.
        - unfold fresh_q in J. destruct raw as [|y r] eqn:Er; [destruct J|]. rewrite <- Er in *. apply in_app_or in J as [J|J]; apply in_map_iff in J as (x & <- & J); cbn [fst snd].
          + apply FRE in J as [_ J]. apply negb_true_iff in J. now apply occ_false.
          + apply in_seq in J. destruct (memb x raw) eqn:M.
            * apply memb_In, FRE in M as [M J']. apply negb_true_iff in J'. rewrite (i_mark c IN) by now apply skip_lt. now rewrite J'.
            * assert (LX : x < pgb - 1). { destruct (exists_last (l := raw)) as (l & z & Ez); [congruence|]. rewrite Ez, last_last in J. destruct (FRE z) as [Q _]; [rewrite Ez; apply in_or_app; right; now left|]. lia. }
              rewrite (i_mark c IN) by now apply skip_lt. destruct (occ c (skip j x)) eqn:EO; auto. exfalso. assert (In x raw) by (apply DWN; [lia|congruence|cbn beta; now rewrite EO]). apply memb_In in H. congruence. }
      destruct (meth_step m j raw c IM Lj CH (i_ok c IN) PRE) as (OK' & (f & IF) & _ & _). destruct CH as [CH1 CH2 CH3]. assert (V1 := meth_st pgb m (nlm m) j raw c Z1 Lj CH1 CH2). assert (V2 := meth_sk pgb m (nlm m) j raw c Z1 Lj CH1 CH2).
      assert (PR1 := posn_raw pgb m (nlm m) j raw Z1 Lj CH1 CH2). assert (PR2 := raw_posn pgb m (nlm m) j raw Z1 Lj CH1).
      change (qeff (meth_q pgb m (rev (m_subs m)) (mord m) (nlm m) j raw) c) with (qeff (mqop m j raw) c) in *. set (c1 := qeff (mqop m j raw) c) in *.
      assert (LT : forall a, a < length (m_subs m) -> nth a (m_subs m) 0 + 2 <= ntasks P + 1). { intros a La. assert (X := wfm_subs P m (wf_methods P WF m IM) _ (nth_In _ 0 La)). unfold ntasks. lia. }
      assert (OCC : forall p, p < pgb -> occ c1 p = true <-> occ c p = true \/ exists x, In x raw /\ p = skip j x).
      { intros p Lp. rewrite !occ_true. destruct (V1 p Lp) as [(a & La & E & X)|[(_ & -> & X)|(H1 & H2 & ->)]].
        - rewrite X. destruct (PR1 a La) as [(_ & _ & Q)|(x & Ix & Q)]; [|split; [intros _; right; exists x; split; congruence|intros _; lia]]. assert (Ep : p = j) by congruence. rewrite Ep. split; intros _; [left|]; lia.
        - rewrite X. split; intros _; [left|]; lia.
        - split; auto. intros [H|(x & Ix & ->)]; auto. exfalso. destruct (PR2 x Ix) as (a & La & Ea). now apply (H1 a La). }
      destruct (IH k' (Nat.lt_succ_diag_r _) s c1 plan) as (l & s' & c' & R & A & G & Z); auto.
      + split; auto.
        * intros p Lp. destruct (V1 p Lp) as [(a & La & E & ->)|[(_ & -> & ->)|(H1 & H2 & ->)]]; [now apply LT|lia|now apply (i_lab c IN)].
        * intros p Lp. assert (X := OCC p Lp). destruct (V2 p) as [(x & Ix & E & ->)|(H & ->)].
          -- destruct (occ c1 p); auto. assert (Q : false = true) by (apply X; right; eauto). discriminate.
          -- rewrite (i_mark c IN) by auto. destruct (occ c p) eqn:E1, (occ c1 p) eqn:E2; auto; [assert (Q : false = true) by (apply X; auto); discriminate|]. exfalso. destruct (proj1 X eq_refl) as [Q|(x & Ix & Q)]; [discriminate|]. now apply (H x Ix).
      + assert (X : count c1 <= count c + length raw); [|rewrite Lr in X; nia]. unfold count. rewrite <- (map_length (skip j) raw), <- app_length. apply NoDup_incl_length; [apply nodup_seq_filter|]. intros p J. apply filter_In in J as [J O]. apply in_seq in J. apply in_or_app.
        assert (Lp : p < pgb) by lia. destruct (proj1 (OCC p Lp) O) as [O'|(x & Ix & ->)]; [left; apply filter_In; split; auto; apply in_seq; lia|right; now apply in_map].
      + assert (DF := decF_decomposes P (net c) [j] m W IM (proj1 MIN) ltac:(cbn; lia)). assert (TQ := decomposes_fun _ _ _ _ _ _ DC DF).
        eapply (solvesk_iso P s s (decF (net c) [j] m) (net c1)); eauto.
        * eapply decomposes_wf; eauto.
        * apply net_wf, OK'.
        * split; [tauto|eauto].
        * eapply (solvesk_ext P s s tn); eauto. tauto.
      + exists (BMeth i j raw :: l), s', c'. split; auto. econstructor; eauto. split; auto.
    - (* all tasks that can be processed are actions *)
      assert (MP : forall x, minimal (net c) x -> primitive P (t_lab (net c) x)).
      { intros x M. assert (M' := M). destruct M' as [(p & -> & Lp & O) _]. assert (X := find_none _ _ F p ltac:(apply in_seq; lia)). cbn beta in X. assert (RD := minimal_ready c p IN SE Lp M).
        assert (FB : forallb (fun k => (k =? p) || negb (c (SC k p) =? 1))%bool (seq 0 pgb) = true). { apply forallb_forall. intros q J. apply in_seq in J. destruct (Nat.eqb_spec q p); auto. cbn [orb]. rewrite (proj2 RD q) by (auto; lia). reflexivity. }
        rewrite FB, (proj2 (Nat.leb_le 2 (c (ST p))) O) in X. cbn in X. unfold primitive. cbn. destruct (nth_error (p_prim P) (c (ST p) - 2)) as [[]|]; congruence. }
      apply find_some in F0 as [I0 F0]. apply in_seq in I0. apply Nat.leb_le in F0. assert (EX : exists x, t_in (net c) x) by (exists [p0], p0; repeat split; auto; lia).
      destruct (solvesk_act_complete P s (net c) k plan AC AB NE W EX MP SOL) as (x & k' & plan' & M & AP & -> & -> & S1). assert (PX := MP x M). assert (M' := M). destruct M' as [(j & -> & Lj & O) _]. cbn [t_lab Strips_net.net hd] in *. set (i := c (ST j) - 2) in *.
      assert (RD := minimal_ready c j IN SE Lj M). replace (c (ST j)) with (i + 2) in RD by (unfold i; lia).
      destruct (leave_ok pgb c j (i + 2) _ Lj (act_leaves pgb i j Lj) (i_ok c IN) RD) as (OK' & T & _). destruct (T ltac:(lia)) as [T1 _]. destruct (leave_inv c j (i + 2) _ Lj (act_leaves pgb i j Lj) IN RD ltac:(lia)) as [IN' CT].
      change (upd (snd (act_q i j)) c) with (qeff (act_q i j) c) in *. set (c1 := qeff (act_q i j) c) in *.
      destruct (IH k' (Nat.lt_succ_diag_r _) (result P s i) c1 plan') as (l & s' & c' & R & A & G & Z); auto.
      + nia.
      + apply (solvesk_ext P _ (result P s i) (minus (net c) [j]) (net c1) k' plan' (fun f => iff_refl _) T1). exact S1.
      + exists (BAct i j :: l), s', c'. split; [|split; [|auto]].
        * econstructor; eauto; [now apply (wf_prim P WF)|]. intros p Ip. now apply (proj2 (ready_iff pgb c j (i + 2) Lj) RD).
        * unfold bacts in *. cbn. now rewrite A.
  Qed.
End Run.
