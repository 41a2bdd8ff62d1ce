(** Runs of the operators on positions: soundness and completeness for task networks. *)
From Coq Require Import Relations.
From Verif Require Import Base Htn_problem Htn_spec Htn_sem Htn_iso Htn_proof Sas_model Push_model Push_net Push_sys.

Lemma iso_sym f a b : iso f a b -> iso (fun x y => f y x) b a.
Proof.
  intros [D T Su Fu In La Or]. split.
  - intros x y H. apply D in H. tauto.
  - auto.
  - auto.
  - intros x y y' H H'. eapply In; eauto.
  - intros x x' y H H'. eapply Fu; eauto.
  - intros x y H. symmetry. now apply La.
  - intros x y x' y' H H'. symmetry. now apply Or.
Qed.

Inductive aop := AAct (i j : nat) | AMeth (i j : nat) | AMove (i j : nat).
Definition acts (l : list aop) : list nat := concat (map (fun o => match o with AAct i _ => [i] | _ => [] end) l).

Section Run.
  Variables (P : problem) (pgb : nat).
  Hypotheses (WF : wf_problem P) (AF : forall t, t < length (p_cost P) -> primitive P t).
  Hypothesis (TOP : forall m, In m (p_methods P) -> forall a b, In (a, b) (m_ord m) -> a < b).
  Notation act_s := (act_s pgb). Notation move_s := (move_s pgb). Notation ok := (ok pgb). Notation net := (net pgb).
  Definition msop (m : method) (j : nat) : sop := meth_s pgb m (rev (m_subs m)) (mord m) j.

  Inductive arun : state -> conf -> list aop -> state -> conf -> Prop :=
  | ar_nil s c : arun s c [] s c
  | ar_act s c i j l s' c' : i < length (p_cost P) -> j < pgb -> applicable P s i -> spre (act_s i j) c -> arun (result P s i) (seff (act_s i j) c) l s' c' -> arun s c (AAct i j :: l) s' c'
  | ar_meth s c i m j l s' c' : nth_error (p_methods P) i = Some m -> length (m_subs m) + j <= pgb -> spre (msop m j) c -> arun s (seff (msop m j) c) l s' c' -> arun s c (AMeth i j :: l) s' c'
  | ar_move s c i j l s' c' : i < ntasks P -> 1 <= j < pgb -> spre (move_s i j) c -> arun s (seff (move_s i j) c) l s' c' -> arun s c (AMove i j :: l) s' c'.

  Lemma ar_app s c l1 s1 c1 l2 s2 c2 : arun s c l1 s1 c1 -> arun s1 c1 l2 s2 c2 -> arun s c (l1 ++ l2) s2 c2.
  Proof. induction 1; intros R; cbn; auto; econstructor; eauto. Qed.

  Lemma ord_lt m : In m (p_methods P) -> forall a b, In (a, b) (m_ord m) -> a < b < length (m_subs m).
  Proof. intros I a b J. split; [eapply TOP; eauto|]. apply (wfm_ord P m (wf_methods P WF m I) a b J). Qed.
  Lemma subs_pos m : In m (p_methods P) -> 1 <= length (m_subs m).
  Proof. intros I. assert (X := wfm_nonempty P m (wf_methods P WF m I)). destruct (m_subs m); [congruence|cbn; lia]. Qed.

  Lemma move_pre i j c : spre (move_s i j) c -> c (ST j) = S i /\ c (ST (j - 1)) = 0.
  Proof. intros H. split; [apply (H (ST j, 1 + i))|apply (H (ST (j - 1), 0))]; cbn; auto. Qed.
  Lemma net_lab c j : c (ST j) <> 0 -> t_lab (net c) [j] = c (ST j) - 1. Proof. reflexivity. Qed.

  Lemma arun_sound s c l s' c' : arun s c l s' c' -> ok c -> (forall p, p < pgb -> c' (ST p) = 0) -> goal_state P s' -> exists k, solvesk P s (net c) k (acts l).
  Proof.
    assert (AC := wf_acyclic P WF). induction 1 as [s c|s c i j l s' c' Li Lj AP PR R IH|s c i m j l s' c' EM FIT PR R IH|s c i j l s' c' Li Lj PR R IH]; intros OK Z G.
    - exists 0. apply solvesk_done; auto. intros x (p & _ & L & N). now apply N, Z.
    - destruct (act_ok pgb i j c Lj OK PR) as (OK' & T & MIN & E). destruct (IH OK' Z G) as (k & SL). exists (S k). unfold acts. cbn [map concat app]. replace i with (t_lab (net c) [j]) by (cbn; lia).
      apply solvesk_act; auto; [apply net_wf, OK| | |]; replace (t_lab (net c) [j]) with i by (cbn; lia); auto.
      apply (solvesk_ext P _ (result P s i) (net (seff (act_s i j) c)) (minus (net c) [j]) k _ (fun f => iff_refl _) (teq_sym _ _ T)). exact SL.
    - assert (IM : In m (p_methods P)) by (eapply nth_error_In; eauto). destruct (meth_ok pgb m j c (subs_pos m IM) FIT (ord_lt m IM) OK PR) as (OK' & (f & IF) & MIN & E). destruct (IH OK' Z G) as (k & SL). exists (S k). unfold acts. cbn [map concat app].
      assert (W := net_wf pgb c (proj1 OK)). assert (D : decomposes P (net c) [j] m (decF (net c) [j] m)) by (apply decF_decomposes; auto; [apply MIN|cbn; lia]).
      apply (solvesk_dec P s (net c) [j] m (decF (net c) [j] m)); auto. refine (solvesk_iso P s s _ (decF (net c) [j] m) k _ AC _ _ _ SL).
      + apply net_wf, OK'.
      + eapply decomposes_wf; eauto.
      + split; [tauto|]. exists (fun x y => f y x). now apply iso_sym.
    - destruct (move_pre i j c PR) as [E1 E2]. destruct (move_ok pgb i j c Lj OK E1 E2) as (OK' & f & IF). destruct (IH OK' Z G) as (k & SL). exists k. unfold acts. cbn [map concat app].
      refine (solvesk_iso P s s _ (net c) k _ AC _ _ _ SL); [apply net_wf, OK'|apply net_wf, OK|]. split; [tauto|]. exists (fun x y => f y x). now apply iso_sym.
  Qed.

  (** ** Completeness *)

  Definition occ (c : conf) (p : nat) : bool := negb (c (ST p) =? 0).
  Lemma occ_true c p : occ c p = true <-> c (ST p) <> 0. Proof. unfold occ. rewrite negb_true_iff. now rewrite Nat.eqb_neq. Qed.
  Lemma occ_false c p : occ c p = false <-> c (ST p) = 0. Proof. unfold occ. rewrite negb_false_iff. now rewrite Nat.eqb_eq. Qed.
  Definition weight (g : nat -> nat) (c : conf) (l : list nat) : nat := list_sum (map (fun p => if occ c p then g p else 0) l).
  Definition total (g : nat -> nat) (c : conf) : nat := weight g c (seq 0 pgb).

  Lemma weight_cons g c p l : weight g c (p :: l) = (if occ c p then g p else 0) + weight g c l. Proof. reflexivity. Qed.
  Lemma weight_app g c l1 l2 : weight g c (l1 ++ l2) = weight g c l1 + weight g c l2.
  Proof. unfold weight. now rewrite map_app, list_sum_app. Qed.
  Lemma weight_ext g c c' l : (forall p, In p l -> occ c p = occ c' p) -> weight g c l = weight g c' l.
  Proof. intros H. unfold weight. f_equal. apply map_ext_in. intros p I. now rewrite H. Qed.
  Lemma weight_zero g c l : (forall p, In p l -> occ c p = false) -> weight g c l = 0.
  Proof. induction l as [|p l IH]; intros H; auto. rewrite weight_cons, (H p) by now left. apply IH. intros q I. apply H. now right. Qed.
  Lemma weight_full c l : (forall p, In p l -> occ c p = true) -> weight (fun _ => 1) c l = length l.
  Proof. induction l as [|p l IH]; intros H; auto. rewrite weight_cons, (H p) by now left. cbn. f_equal. apply IH. intros q I. apply H. now right. Qed.
  Lemma weight_le c l : weight (fun _ => 1) c l <= length l.
  Proof. induction l as [|p l IH]; auto. rewrite weight_cons. cbn [length]. destruct (occ c p); lia. Qed.
  Lemma seq_split a b : a <= b -> seq 0 b = seq 0 a ++ seq a (b - a).
  Proof. intros L. replace b with (a + (b - a)) at 1 by lia. apply seq_app. Qed.

  (** Task positions are marked, labels are tasks, and at most one task, with a free position below it, is movable. *)
  Record inv (c : conf) : Prop := {
    i_ok : ok c;
    i_lab : forall p, p < pgb -> c (ST p) <= ntasks P;
    i_mark : forall p, p < pgb -> c (SK p) = if occ c p then 1 else 0;
    i_mov : (forall p, p < pgb -> c (SM p) = 0) \/
            exists q, 1 <= q < pgb /\ occ c q = true /\ occ c (q - 1) = false /\ forall p, p < pgb -> p <> q -> c (SM p) = 0 }.
  Definition compact (c : conf) (L : nat) : Prop := L <= pgb /\ (forall p, p < pgb -> (occ c p = true <-> p < L)) /\ forall p, p < pgb -> c (SM p) = 0.

  Lemma move_inv c q : inv c -> 1 <= q < pgb -> occ c q = true -> occ c (q - 1) = false -> (forall p, p < pgb -> p <> q -> c (SM p) = 0) ->
    let i := c (ST q) - 1 in let c' := seff (move_s i q) c in
    i < ntasks P /\ spre (move_s i q) c /\ inv c' /\ (exists f, iso f (net c) (net c')) /\ (forall g, total g c' + g q = total g c + g (q - 1)).
  Proof.
    intros [OK LA MA _] Lq O1 O2 MV i c'. assert (E1 : c (ST q) = S i) by (apply occ_true in O1; unfold i; lia). assert (E2 : c (ST (q - 1)) = 0) by now apply occ_false.
    assert (PRE : spre (move_s i q) c).
    { intros p I. cbn [Push_sys.move_s s_prec app In] in I. destruct I as [<-|[<-|[<-|[<-|I]]]]; cbn [fst snd]; auto; try (rewrite MA by lia; now rewrite ?O1, ?O2).
      apply in_map_iff in I as (l & <- & I). apply in_seq in I. destruct (Nat.ltb_spec l q); cbn [fst snd]; apply MV; lia. }
    destruct (move_ok pgb i q c Lq OK E1 E2) as (OK' & ISO). destruct (move_val pgb i q c Lq) as (V1 & V2 & V3 & V4 & V5 & V6). fold c' in OK', ISO, V1, V2, V3, V4, V5, V6.
    assert (OCC : forall p, occ c' p = if p =? q then false else if p =? q - 1 then true else occ c p). { intros p. unfold occ. rewrite V1. destruct (p =? q); auto. destruct (p =? q - 1); auto. }
    split; [specialize (LA q ltac:(lia)); lia|]. split; auto. split; [split; auto|split; auto].
    - intros p L. rewrite V1. destruct (p =? q); [lia|]. destruct (p =? q - 1); [|now apply LA]. specialize (LA q ltac:(lia)). lia.
    - intros p L. rewrite V2, OCC. destruct (p =? q); auto. destruct (p =? q - 1); auto.
    - assert (X : forall p, p < pgb -> p <> q - 1 -> c' (SM p) = 0). { intros p L N. rewrite V3 by auto. destruct (Nat.eqb_spec p q); auto. }
      destruct (Nat.eq_dec q 1) as [->|Nq].
      + left. intros p L. destruct (Nat.eq_dec p 0) as [->|N]; [|apply X; auto; lia]. rewrite V4 by auto. apply MV; lia.
      + assert (K := MA (q - 2) ltac:(lia)). destruct (occ c (q - 2)) eqn:EO.
        * left. intros p L. destruct (Nat.eq_dec p (q - 1)) as [->|N]; [|now apply X]. apply V6; auto. lia.
        * right. exists (q - 1). split; [lia|]. rewrite !OCC. split; [|split; [|exact X]].
          -- destruct (Nat.eqb_spec (q - 1) q); [lia|]. now rewrite Nat.eqb_refl.
          -- destruct (Nat.eqb_spec (q - 1 - 1) q); [lia|]. destruct (Nat.eqb_spec (q - 1 - 1) (q - 1)); [lia|]. now replace (q - 1 - 1) with (q - 2) by lia.
    - intros g. unfold total. rewrite (seq_split (q - 1) pgb) by lia. replace (pgb - (q - 1)) with (S (S (pgb - S q))) by lia. cbn [seq]. replace (S (q - 1)) with q by lia. change (q - 1 :: q :: seq (S q) (pgb - S q)) with ([q - 1] ++ [q] ++ seq (S q) (pgb - S q)). rewrite !weight_app.
      rewrite (weight_ext g c' c (seq 0 (q - 1))), (weight_ext g c' c (seq (S q) (pgb - S q))).
      + rewrite !weight_cons. change (weight g c' []) with 0. change (weight g c []) with 0. rewrite !OCC, O1, O2. rewrite !Nat.eqb_refl. destruct (Nat.eqb_spec (q - 1) q); lia.
      + intros p I. apply in_seq in I. rewrite OCC. destruct (Nat.eqb_spec p q); [lia|]. destruct (Nat.eqb_spec p (q - 1)); [lia|auto].
      + intros p I. apply in_seq in I. rewrite OCC. destruct (Nat.eqb_spec p q); [lia|]. destruct (Nat.eqb_spec p (q - 1)); [lia|auto].
  Qed.

  Lemma no_hole c : (forall q, 1 <= q < pgb -> occ c q = true -> occ c (q - 1) = false -> False) -> exists L, L <= pgb /\ (forall p, p < pgb -> (occ c p = true <-> p < L)) /\ total (fun _ => 1) c = L.
  Proof.
    intros H. assert (X : exists L, L <= pgb /\ forall p, p < pgb -> (occ c p = true <-> p < L)).
    { clear WF AF TOP P. revert H. generalize pgb as n. induction n as [|n IH]; intros H; [exists 0; split; auto; intros p L; lia|].
      destruct IH as (L & LL & HL); [intros q Lq; apply H; lia|]. destruct (occ c n) eqn:E.
      - exists (S n). split; auto. intros p Lp. split; [lia|]. intros _. destruct (Nat.eq_dec p n) as [->|N]; auto. destruct (Nat.eq_dec n 0) as [->|N0]; [lia|]. destruct (occ c (n - 1)) eqn:E'; [|exfalso; apply (H n); auto; lia]. apply HL in E'; [|lia]. apply HL; lia.
      - exists L. split; [lia|]. intros p Lp. destruct (Nat.eq_dec p n) as [->|N]; [|apply HL; lia]. split; [congruence|lia]. }
    destruct X as (L & LL & HL). exists L. split; auto. split; auto. unfold total. rewrite (seq_split L pgb LL), weight_app, weight_full, weight_zero, seq_length; [lia| |].
    - intros p I. apply in_seq in I. destruct (occ c p) eqn:E; auto. apply HL in E; lia.
    - intros p I. apply in_seq in I. apply HL; lia.
  Qed.

  Definition only_moves (l : list aop) : Prop := acts l = [].
  Lemma compaction s : forall M c, total (fun p => p) c <= M -> inv c ->
    exists l c', arun s c l s c' /\ acts l = [] /\ inv c' /\ (exists f, iso f (net c) (net c')) /\ compact c' (total (fun _ => 1) c).
  Proof.
    assert (REFL : forall c, exists f, iso f (net c) (net c)).
    { intros c. exists (fun x y => x = y /\ t_in (net c) x). split; intros; repeat match goal with H : _ /\ _ |- _ => destruct H end; subst; eauto; tauto. }
    assert (TR : forall a b d f g, iso f a b -> iso g b d -> exists h, iso h a d).
    { intros a b d f g I1 I2. exists (fun x z => exists y, f x y /\ g y z). split.
      - intros x z (y & H & K). split; [apply (iso_dom _ _ _ I1 _ _ H)|apply (iso_dom _ _ _ I2 _ _ K)].
      - intros x H. destruct (iso_tot _ _ _ I1 x H) as (y & Hy). destruct (iso_tot _ _ _ I2 y) as (z & Hz); [apply (iso_dom _ _ _ I1 _ _ Hy)|]. eauto.
      - intros z H. destruct (iso_surj _ _ _ I2 z H) as (y & Hy). destruct (iso_surj _ _ _ I1 y) as (x & Hx); [apply (iso_dom _ _ _ I2 _ _ Hy)|]. eauto.
      - intros x z z' (y & H & K) (y' & H' & K'). rewrite (iso_fun _ _ _ I1 _ _ _ H H') in K. eapply (iso_fun _ _ _ I2); eauto.
      - intros x x' z (y & H & K) (y' & H' & K'). rewrite (iso_inj _ _ _ I2 _ _ _ K K') in H. eapply (iso_inj _ _ _ I1); eauto.
      - intros x z (y & H & K). rewrite (iso_lab _ _ _ I2 _ _ K). now apply (iso_lab _ _ _ I1).
      - intros x z x' z' (y & H & K) (y' & H' & K'). rewrite (iso_ord _ _ _ I1 _ _ _ _ H H'). now apply (iso_ord _ _ _ I2). }
    induction M as [M IH] using lt_wf_ind. intros c LM IN.
    assert (STEP : forall q, 1 <= q < pgb -> occ c q = true -> occ c (q - 1) = false -> (forall p, p < pgb -> p <> q -> c (SM p) = 0) ->
      exists l c', arun s c l s c' /\ acts l = [] /\ inv c' /\ (exists f, iso f (net c) (net c')) /\ compact c' (total (fun _ => 1) c)).
    { intros q Lq O1 O2 MV. destruct (move_inv c q IN Lq O1 O2 MV) as (Li & PRE & IN' & (f & IS) & TT). set (c1 := seff _ c) in *. assert (T1 := TT (fun p => p)). assert (T2 := TT (fun _ => 1)). cbn beta in T1, T2.
      destruct (IH (total (fun p => p) c1) ltac:(lia) c1 (le_n _) IN') as (l & c' & R & A & IN2 & (g & IS2) & CP). exists (AMove (c (ST q) - 1) q :: l), c'. split; [|split; [|split; [|split]]]; auto.
      - constructor; auto.
      - eapply TR; eauto.
      - replace (total (fun _ => 1) c) with (total (fun _ => 1) c1) by lia. exact CP. }
    destruct (i_mov c IN) as [MV|(q & Lq & O1 & O2 & MV)]; [|now apply (STEP q)].
    destruct (find (fun q => (occ c q && negb (occ c (q - 1)))%bool) (seq 1 (pgb - 1))) as [q|] eqn:F.
    - apply find_some in F as [I F]. apply in_seq in I. apply andb_true_iff in F as [F1 F2]. apply negb_true_iff in F2. apply (STEP q); auto. lia.
    - destruct (no_hole c) as (L & LL & HL & TL). { intros q Lq O1 O2. assert (X := find_none _ _ F q ltac:(apply in_seq; lia)). cbn beta in X. rewrite O1, O2 in X. discriminate. }
      exists [], c. split; [constructor|]. split; auto. split; auto. split; auto. rewrite TL. split; auto.
  Qed.

  Definition readyb (c : conf) (j : nat) : bool := (occ c j && forallb (fun k => negb (c (SC k j) =? 1)) (seq (S j) (pgb - S j)))%bool.
  Lemma readyb_ok c j : ok c -> j < pgb -> (readyb c j = true <-> minimal (net c) [j]).
  Proof.
    intros [C B] L. unfold readyb. rewrite andb_true_iff, forallb_forall. split.
    - intros [O H]. apply net_minimal; auto; [now apply occ_true|]. intros k [Lk E]. specialize (H k ltac:(apply in_seq; lia)). rewrite E in H. discriminate.
    - intros M. assert (M' := M). destruct M' as [(p & [= <-] & _ & O) _]. split; [now apply occ_true|]. intros k I. apply in_seq in I. assert (M1 := proj1 (net_minimal pgb c j C L O) M). destruct (Nat.eqb_spec (c (SC k j)) 1) as [E|]; auto. exfalso. apply (M1 k). split; auto. lia.
  Qed.
  Lemma minimal_ready c L j b : inv c -> compact c L -> j < pgb -> minimal (net c) [j] -> c (ST j) = b -> ready pgb c j b.
  Proof.
    intros IN (LL & CP & _) Lj M E. destruct (i_ok c IN) as [C B]. assert (O : c (ST j) <> 0) by (destruct M as [(p & [= <-] & _ & O) _]; auto). split; auto. split.
    - intros k Lk. assert (M1 := proj1 (net_minimal pgb c j C Lj O) M). assert (X := B k j Lk). destruct (Nat.eq_dec (c (SC k j)) 1) as [Q|Q]; [|lia]. exfalso. apply (M1 k). split; auto.
    - intros k Lk. rewrite (i_mark c IN) by lia. apply (proj2 (occ_true c j)) in O. apply (CP j Lj) in O. now rewrite (proj2 (CP k ltac:(lia)) ltac:(lia)).
  Qed.

  (** An upper bound for the number of subtasks *)
  Variable D : nat.
  Hypothesis (SIZE : forall m, In m (p_methods P) -> length (m_subs m) <= D).

  Lemma arun_complete k : forall s c L plan, inv c -> compact c L -> L + k * D <= pgb -> solvesk P s (net c) k plan ->
    exists l s' c', arun s c l s' c' /\ acts l = plan /\ goal_state P s' /\ forall p, p < pgb -> c' (ST p) = 0.
  Proof.
    assert (AC := wf_acyclic P WF). assert (NE := wf_nonempty P WF). assert (AB := wf_abstract P WF).
    induction k as [k IH] using lt_wf_ind. intros s c L plan IN CP BD SOL. assert (W := net_wf pgb c (proj1 (i_ok c IN))). destruct (Nat.eq_dec L 0) as [->|NL].
    { assert (Z : forall p, p < pgb -> c (ST p) = 0). { intros p Lp. destruct CP as (_ & CP & _). apply occ_false. destruct (occ c p) eqn:E; auto. apply CP in E; lia. }
      destruct (solvesk_empty P s (net c) k plan AC W NE) as [-> G]; auto; [intros x (p & _ & Lp & N); now apply N, Z|]. exists [], s, c. split; [constructor|auto]. }
    assert (FIN : forall k' c1 s1 plan1, k' < k -> inv c1 -> total (fun _ => 1) c1 + k' * D <= pgb -> solvesk P s1 (net c1) k' plan1 -> exists l s' c', arun s1 c1 l s' c' /\ acts l = plan1 /\ goal_state P s' /\ forall p, p < pgb -> c' (ST p) = 0).
    { intros k' c1 s1 plan1 Lk IN1 B1 S1. destruct (compaction s1 _ c1 (le_n _) IN1) as (l & c2 & R & A & IN2 & IS & CP2).
      destruct (IH k' Lk s1 c2 (total (fun _ => 1) c1) plan1) as (l2 & s' & c' & R2 & A2 & G & Z); auto.
      - eapply (solvesk_iso P s1 s1 (net c1) (net c2)); eauto; [apply net_wf, (i_ok _ IN1)|apply net_wf, (i_ok _ IN2)|]. split; [tauto|auto].
      - exists (l ++ l2), s', c'. split; [eapply ar_app; eauto|]. split; auto. unfold acts in *. rewrite map_app, concat_app, A, A2. reflexivity. }
    assert (TL : total (fun _ => 1) c = L).
    { destruct CP as (LL & CP & _). unfold total. rewrite (seq_split L pgb LL), weight_app, weight_full, weight_zero, seq_length; [lia| |].
      - intros p I. apply in_seq in I. destruct (occ c p) eqn:E; auto. apply CP in E; lia.
      - intros p I. apply in_seq in I. apply CP; lia. }
    destruct (find (fun j => readyb c j && match nth_error (p_prim P) (c (ST j) - 1) with Some true => false | _ => true end)%bool (seq 0 pgb)) as [j|] eqn:F.
    - (* an abstract task that can be processed *)
      apply find_some in F as [I F]. apply in_seq in I. assert (Lj : j < pgb) by lia. apply andb_true_iff in F as [F1 F2]. apply (readyb_ok c j (i_ok c IN) Lj) in F1.
      assert (NP : ~ primitive P (t_lab (net c) [j])) by (unfold primitive; cbn; intros X; rewrite X in F2; discriminate).
      destruct (solvesk_dec_complete P s (net c) [j] k plan AC W (proj1 F1) NP SOL) as (m & tn & k' & -> & DC & S1).
      assert (IM := d_method _ _ _ _ _ DC). destruct (In_nth_error _ _ IM) as (i & EM). assert (LB := d_lab _ _ _ _ _ DC). cbn in LB.
      assert (O : c (ST j) <> 0) by (destruct F1 as [(p & [= <-] & _ & O) _]; auto). assert (Em : c (ST j) = m_task m + 1) by lia. assert (Z1 := subs_pos m IM). assert (Z2 := SIZE m IM).
      assert (Lo : j < L) by (apply CP; auto; now apply occ_true). assert (FIT : length (m_subs m) + j <= pgb) by nia.
      assert (TOPS : forall a, S a < length (m_subs m) -> c (ST (pgb - 1 - a)) = 0). { intros a La. apply occ_false. destruct (occ c (pgb - 1 - a)) eqn:E; auto. apply CP in E; nia. }
      assert (PRE : spre (msop m j) c).
      { intros p J. unfold msop, meth_s in J. cbn [s_prec] in J. apply in_app_or in J as [J|J].
        - apply (proj2 (ready_iff pgb c j (m_task m + 1) Lj)); auto. eapply minimal_ready; eauto.
        - rewrite rev_length in J. apply in_map_iff in J as (l & <- & J). apply in_seq in J. cbn [fst snd]. apply TOPS. lia. }
      destruct (meth_ok pgb m j c Z1 FIT (ord_lt m IM) (i_ok c IN) PRE) as (OK' & (f & IF) & _ & _). destruct (meth_val pgb m j c Z1 FIT (ord_lt m IM)) as (V1 & V2 & V3).
      change (seff (meth_s pgb m (rev (m_subs m)) (mord m) j) c) with (seff (msop m j) c) in *. set (c1 := seff (msop m j) c) in *.
      assert (LT : forall a, a < length (m_subs m) -> S (nth a (m_subs m) 0) <= ntasks P). { intros a La. assert (X := wfm_subs P m (wf_methods P WF m IM) _ (nth_In _ 0 La)). unfold ntasks. lia. }
      assert (OCC : forall p, p < pgb -> occ c1 p = if pgb - length (m_subs m) <? p then true else occ c p).
      { intros p Lp. unfold occ. rewrite V1 by auto. destruct (Nat.eqb_spec p j) as [->|N].
        - destruct (Nat.ltb_spec (pgb - length (m_subs m)) j); [lia|]. cbn. symmetry. now apply (occ_true c j).
        - destruct (Nat.ltb_spec (pgb - length (m_subs m)) p); reflexivity. }
      destruct (FIN k' c1 s plan) as (l & s' & c' & R & A & G & Z); auto.
      + split; auto.
        * intros p Lp. rewrite V1 by auto. destruct (p =? j); [apply LT; lia|]. destruct (Nat.ltb_spec (pgb - length (m_subs m)) p); [apply LT; lia|now apply (i_lab c IN)].
        * intros p Lp. rewrite V2, OCC by auto. destruct (pgb - length (m_subs m) <? p); auto. now apply (i_mark c IN).
        * left. intros p Lp. rewrite V3. now apply CP.
      + assert (X : total (fun _ => 1) c1 <= L + (length (m_subs m) - 1)); [|nia]. rewrite <- TL. unfold total. rewrite (seq_split (pgb - length (m_subs m) + 1) pgb) by lia. rewrite !weight_app.
        rewrite (weight_ext _ c1 c (seq 0 _)).
        * assert (Y := weight_le c1 (seq (pgb - length (m_subs m) + 1) (pgb - (pgb - length (m_subs m) + 1)))). rewrite seq_length in Y. lia.
        * intros p J. apply in_seq in J. rewrite OCC by lia. destruct (Nat.ltb_spec (pgb - length (m_subs m)) p); [lia|auto].
      + assert (DF := decF_decomposes P (net c) [j] m W IM (proj1 F1) ltac:(cbn; lia)). assert (TQ := decomposes_fun _ _ _ _ _ _ DC DF).
        eapply (solvesk_iso P s s (decF (net c) [j] m) (net c1)); eauto.
        * eapply decomposes_wf; eauto.
        * apply net_wf, OK'.
        * split; [tauto|eauto].
        * eapply (solvesk_ext P s s tn); eauto. tauto.
      + exists (AMeth i j :: l), s', c'. split; auto. econstructor; eauto.
    - (* all tasks that can be processed are actions *)
      assert (MP : forall x, minimal (net c) x -> primitive P (t_lab (net c) x)).
      { intros x M. assert (M' := M). destruct M' as [(p & -> & Lp & O) _]. assert (X := find_none _ _ F p ltac:(apply in_seq; lia)). cbn beta in X. rewrite (proj2 (readyb_ok c p (i_ok c IN) Lp) M) in X. cbn in X. unfold primitive. cbn. destruct (nth_error (p_prim P) (c (ST p) - 1)) as [[]|]; congruence. }
      assert (EX : exists x, t_in (net c) x). { exists [0]. cbn. exists 0. split; auto. destruct CP as (LL & CP & _). split; [lia|]. apply occ_true, CP; lia. }
      destruct (solvesk_act_complete P s (net c) k plan AC AB NE W EX MP SOL) as (x & k' & plan' & M & AP & -> & -> & S1). assert (PX := MP x M). assert (M' := M). destruct M' as [(j & -> & Lj & O) _]. cbn [t_lab Push_net.net hd] in *. set (i := c (ST j) - 1) in *.
      assert (PRE : spre (act_s i j) c). { intros p J. cbn [Push_sys.act_s s_prec] in J. apply (proj2 (ready_iff pgb c j (i + 1) Lj)); auto. eapply minimal_ready; eauto. unfold i. lia. }
      destruct (act_ok pgb i j c Lj (i_ok c IN) PRE) as (OK' & T & _ & _). destruct (leave_val pgb c j Lj) as (V1 & V2 & V3 & V4). rewrite <- (act_eff pgb i j c) in V1, V2, V3, V4. set (c1 := seff (act_s i j) c) in *.
      assert (OCC : forall p, p < pgb -> occ c1 p = if p =? j then false else occ c p). { intros p Lp. unfold occ. rewrite V1 by auto. destruct (p =? j); auto. }
      destruct (FIN k' c1 (result P s i) plan') as (l & s' & c' & R & A & G & Z); auto.
      + split; auto.
        * intros p Lp. rewrite V1 by auto. destruct (p =? j); [lia|now apply (i_lab c IN)].
        * intros p Lp. rewrite V3, OCC by auto. destruct (p =? j); auto. now apply (i_mark c IN).
        * left. intros p Lp. rewrite V4. now apply CP.
      + assert (X : total (fun _ => 1) c1 <= L); [|nia]. rewrite <- TL. unfold total. assert (Q : forall l, (forall p, In p l -> p < pgb) -> weight (fun _ => 1) c1 l <= weight (fun _ => 1) c l).
        { induction l as [|p l IHl]; intros H; auto. rewrite !weight_cons, OCC by (apply H; now left). specialize (IHl ltac:(intros q J; apply H; now right)). destruct (p =? j), (occ c p); lia. }
        apply Q. intros p J. apply in_seq in J. lia.
      + apply (solvesk_ext P _ (result P s i) (minus (net c) [j]) (net c1) k' plan' (fun f => iff_refl _) T). exact S1.
      + exists (AAct i j :: l), s', c'. split; [|split; [|auto]].
        * econstructor; eauto. now apply (wf_prim P WF).
        * unfold acts in *. cbn. now rewrite A.
  Qed.
End Run.
