(** Theorems about the visited list (properties C31, C32, C60-C62). Proofs are in Vis_proof, VisTop_proof and VisOrd_proof. *)
From Coq Require Import NArith ZArith Relations.
From Verif Require Import Base Rel Htn_model Htn_spec Htn_sem Htn_iso Htn_rep Htn_history Htn_proof Htn_search Htn_hist Htn_thm Heap_model Trie_model Vis_model VisTop_proof Vis_proof VisOrd_proof.
From Verif Require Order_model Order_thm.

(** ** Specification *)

(** Accesses: a node of the search, together with the state and the task network it stands for ([op], [o_ok]). *)

(** Same state and same sequence of remaining tasks. *)
Definition same_tasks (o o' : op) : Prop :=
  (forall f, o_s o f <-> o_s o' f) /\
  exists L L', linearisation (o_tn o) L /\ linearisation (o_tn o') L' /\ map (t_lab (o_tn o)) L = map (t_lab (o_tn o')) L'.

(** Same state and bucket, the remaining tasks of [o] are a proper prefix of those of [o'], and the key of [o] has a multiple of 64 bits. *)
Definition prefix_clash (P : problem) (c : vconf) (par : vpar) (o o' : op) : Prop :=
  (forall f, o_s o f <-> o_s o' f) /\
  exists L L' r, linearisation (o_tn o) L /\ linearisation (o_tn o') L' /\ r <> [] /\ map (t_lab (o_tn o')) L' = map (t_lab (o_tn o)) L ++ r /\
    (p_nfacts P + vc_bits c * length L) mod 64 = 0 /\
    vis_bucket c par (o_w o) (o_n o) (map (t_lab (o_tn o)) L) = vis_bucket c par (o_w o') (o_n o') (map (t_lab (o_tn o')) L').

(** The search uses the visited list; where the code is undefined, the node counts as new. *)
Definition uses (c : vconf) (par : vpar) (E : search_env vtable) : Prop :=
  forall w v n, v_insert E w v n = match insertVisi c par w v n with Some r => r | None => (true, v) end.

Definition alloc_ok (par : vpar) : Prop := forall k, length (vp_al par k) = k.

Lemma vis_conf_fields off nr th sh to pr la gi ps fto fps nt c : vis_conf off nr th sh to pr la gi ps fto fps nt = Some c ->
  vc_off c = off /\ vc_noReopen c = nr /\ vc_topo c = to /\ vc_TO c = fto /\ vc_PS c = (ps && fps)%bool /\ vc_tasks c = nt /\
  0 < vc_bits c /\ nt <= 2 ^ vc_bits c /\ (vc_PS c = true -> nt < 2 ^ vc_bits c).
Proof.
  unfold vis_conf. intros E. set (x := if (ps && fps)%bool then nt else nt - 1) in *.
  destruct (Nat.eqb_spec x 0) as [|NX]; [discriminate|]. injection E as <-. cbn [vc_off vc_noReopen vc_topo vc_TO vc_PS vc_tasks vc_bits].
  assert (Lx : x < 2 ^ S (Nat.log2 x)) by (apply Nat.log2_spec; lia).
  do 6 (split; [reflexivity|]). split; [lia|]. unfold x in *. destruct (ps && fps)%bool; split; try lia; discriminate.
Qed.

Lemma task_bound P w l n s tn pi C : wf_problem P -> config_ok C -> history P C w l -> In n l -> Rep P (w_heap w) n s tn pi -> wf_heap P (w_heap w) -> forall x, t_in tn x -> t_lab tn x < length (p_prim P).
Proof.
  intros WP HC H Hn R W x Hx. apply (r_in _ _ _ _ _ _ R) in Hx as (i & Li & <-). destruct (get_some (w_heap w) i) as (ps & G); [eapply live_lt; eauto; apply R|].
  rewrite (r_lab _ _ _ _ _ _ R i ps) by auto. eapply (wh_task _ _ W); eauto.
Qed.

Section Total.
  Variables (P : problem) (C : config) (par : vpar).
  Variables (nr th sh pr la gi ps fps : bool) (c : vconf).
  Hypothesis WP : wf_problem P.
  Hypothesis HC : config_ok C.
  Hypothesis AL : alloc_ok par.
  Hypothesis TM : total_methods P.
  Hypothesis RM : reduced_methods P.
  Hypothesis NF : 0 < p_nfacts P.
  Hypothesis VC : vis_conf false nr th sh true pr la gi ps true fps (length (p_prim P)) = Some c.

  Lemma total_HS w l n s tn pi : history P C w l -> In n l -> Rep P (w_heap w) n s tn pi ->
    exists sq, vis_sequence c par (w_heap w) n = Some sq /\ sig_total tn sq /\ forall t, In t sq -> t < 2 ^ vc_bits c.
  Proof.
    intros H Hn R. destruct (vis_conf_fields _ _ _ _ _ _ _ _ _ _ _ _ _ VC) as (_ & _ & TP & _ & _ & NT & _ & B & _).
    destruct (total_sequence P C c par WP HC AL TM (fun _ => RM) TP w l n s tn pi H Hn R) as (sq & E & Sg). exists sq. split; auto. split; auto.
    destruct (hist_total P C WP HC TM w l n s tn pi H Hn R) as [W _]. destruct Sg as (_ & _ & L & (_ & I & _) & ->). intros t Ht. apply in_map_iff in Ht as (x & <- & Hx). apply I in Hx.
    eapply Nat.lt_le_trans; [|exact B]. eapply task_bound; eauto.
  Qed.

  Lemma total_visited E : uses c par E -> visited_ok P C E [].
  Proof.
    intros UE. destruct (vis_conf_fields _ _ _ _ _ _ _ _ _ _ _ _ _ VC) as (OFF & NR & TP & TO & _ & NT & NB & _).
    assert (MODE : vc_TO c || vc_PS c = true) by now rewrite TO.
    pose proof (simple_step P C c par sig_total OFF MODE TP NF NB total_HS sig_total_iso) as ST.
    exists (vinv P c sig_total). split; [|split].
    - exists []. split; [apply tab_inv_nil|intros e []].
    - intros w l v n s tn pi L v' H Hn W R I Ev. destruct (ST w v n s tn L) as [S1 _]; [exists l, pi; auto|exact I|]. rewrite UE in Ev. unfold v_total in S1. rewrite Ev in S1. auto.
    - intros w l v n s tn pi L v' H Hn W R I Ev. destruct (ST w v n s tn L) as [_ S1]; [exists l, pi; auto|exact I|]. rewrite UE in Ev. unfold v_total in S1. rewrite Ev in S1. auto.
  Qed.

  Lemma total_same o o' : o_ok P C o -> o_ok P C o' -> (o_same o o' <-> same_tasks o o').
  Proof.
    intros (l & pi & H & Hn & R) (l' & pi' & H' & Hn' & R').
    destruct (hist_total P C WP HC TM _ _ _ _ _ _ H Hn R) as [_ T]. destruct (hist_total P C WP HC TM _ _ _ _ _ _ H' Hn' R') as [_ T'].
    destruct (total_HS _ _ _ _ _ _ H Hn R) as (sq & _ & Sg & _). destruct (total_HS _ _ _ _ _ _ H' Hn' R') as (sq' & _ & Sg' & _). split.
    - intros [ES (f & Is)]. split; auto. pose proof (sig_total_same _ _ _ _ f Is Sg Sg') as ->. destruct Sg as (_ & _ & L & HL & E). destruct Sg' as (_ & _ & L' & HL' & E'). exists L, L'. split; auto. split; auto. congruence.
    - intros [ES (L & L' & HL & HL' & E)]. split; auto. apply (total_iso _ _ L L'); auto; [apply R|apply R'].
  Qed.

  Lemma total_run ops : Forall (o_ok P C) ops -> (forall o o', In o ops -> In o' ops -> o_hash c par o o') ->
    match vis_run c par [] (map (fun o => (o_w o, o_n o)) ops) with
    | Some ans => length ans = length ops /\ forall i o, nth_error ops i = Some o ->
        (nth_error ans i = Some false <-> exists j o', j < i /\ nth_error ops j = Some o' /\ same_tasks o o' /\ (nr = true \/ o_f par o' <= o_f par o))
    | None => exists i o j o', nth_error ops i = Some o /\ j < i /\ nth_error ops j = Some o' /\ prefix_clash P c par o o'
    end.
  Proof.
    intros FO HH. destruct (vis_conf_fields _ _ _ _ _ _ _ _ _ _ _ _ _ VC) as (OFF & NR & TP & TO & _ & NT & NB & _).
    assert (MODE : vc_TO c || vc_PS c = true) by now rewrite TO.
    pose proof (run_inv P C c par sig_total OFF MODE TP NF NB total_HS sig_total_iso sig_total_same ops [] [] [] FO ltac:(constructor)
      ltac:(intros o o' H1 H2; rewrite app_nil_r in H2; auto) ltac:(constructor) (tab_inv_nil _)) as Q.
    assert (OK : forall i o, nth_error ops i = Some o -> o_ok P C o) by (intros i o G; rewrite Forall_forall in FO; apply FO; eapply nth_error_In; eauto).
    destruct (vis_run c par [] _) as [ans|].
    - destruct Q as [EL Q]. split; auto. intros i o G. rewrite (Q i o G). rewrite NR. split.
      + intros (o' & [[]|(j & Lj & Gj)] & SN & F). exists j, o'. split; auto. split; auto. split; auto. apply total_same; eauto.
      + intros (j & o' & Lj & Gj & SN & F). exists o'. split; [right; eauto|]. split; auto. apply total_same; eauto.
    - destruct Q as (i & o & o' & G & [[]|(j & Lj & Gj)] & sq & r & ES & (_ & _ & L & HL & ->) & Nr & (_ & _ & L' & HL' & E') & M & B). exists i, o, j, o'. split; auto. split; auto. split; auto.
      split; auto. exists L, L', r. rewrite map_length in M. rewrite <- E'. auto 10.
  Qed.
End Total.

(** ** C31: totally ordered problems *)

(** A node is rejected exactly if an earlier node had the same state and the same remaining tasks (and, if nodes are reopened, a
    value that is not larger). [c] is any configuration that the constructor creates for a problem with the total-order flag and that
    stores sequences; equal networks must have equal tables of contained tasks (C08) when these are hashed. *)
Theorem visited_total_exact : forall P C par nr th sh pr la gi ps fps c ops ans,
  wf_problem P -> config_ok C -> alloc_ok par -> total_methods P -> reduced_methods P -> 0 < p_nfacts P ->
  vis_conf false nr th sh true pr la gi ps true fps (length (p_prim P)) = Some c ->
  Forall (o_ok P C) ops -> (forall o o', In o ops -> In o' ops -> o_hash c par o o') ->
  vis_run c par [] (map (fun o => (o_w o, o_n o)) ops) = Some ans ->
  length ans = length ops /\ forall i o, nth_error ops i = Some o ->
    (nth_error ans i = Some false <-> exists j o', j < i /\ nth_error ops j = Some o' /\ same_tasks o o' /\ (nr = true \/ o_f par o' <= o_f par o)).
Proof.
  intros P C par nr th sh pr la gi ps fps c ops ans WP HC AL TM RM NF VC FO HH E.
  pose proof (total_run P C par nr th sh pr la gi ps fps c WP HC AL TM RM NF VC ops FO HH) as Q. rewrite E in Q. exact Q.
Qed.

(** The sequence of accesses is defined unless a node is looked up whose key has a multiple of 64 bits, and whose remaining tasks are a
    proper prefix of those of an earlier node with the same state in the same bucket. *)
Theorem visited_total_defined : forall P C par nr th sh pr la gi ps fps c ops,
  wf_problem P -> config_ok C -> alloc_ok par -> total_methods P -> reduced_methods P -> 0 < p_nfacts P ->
  vis_conf false nr th sh true pr la gi ps true fps (length (p_prim P)) = Some c ->
  Forall (o_ok P C) ops -> (forall o o', In o ops -> In o' ops -> o_hash c par o o') ->
  vis_run c par [] (map (fun o => (o_w o, o_n o)) ops) = None ->
  exists i o j o', nth_error ops i = Some o /\ j < i /\ nth_error ops j = Some o' /\ prefix_clash P c par o o'.
Proof.
  intros P C par nr th sh pr la gi ps fps c ops WP HC AL TM RM NF VC FO HH E.
  pose proof (total_run P C par nr th sh pr la gi ps fps c WP HC AL TM RM NF VC ops FO HH) as Q. rewrite E in Q. exact Q.
Qed.

(** The contract of the search (C02): no solution is lost. *)
Theorem visited_total_ok : forall P C par nr th sh pr la gi ps fps c E,
  wf_problem P -> config_ok C -> alloc_ok par -> total_methods P -> reduced_methods P -> 0 < p_nfacts P ->
  vis_conf false nr th sh true pr la gi ps true fps (length (p_prim P)) = Some c -> uses c par E -> visited_ok P C E [].
Proof. intros. eapply total_visited; eauto. Qed.

(** From the file: [rs] are the methods with the orderings read, [f] are the flags. *)
Theorem visited_total_search : forall P C par rs os f nr th sh pr la gi ps c E afuel fuel,
  wf_problem P -> config_ok C -> alloc_ok par -> 0 < p_nfacts P ->
  (forall r, In r rs -> Order_thm.wf_ord (Order_thm.m_n r) (Order_thm.m_ord r) /\ Order_thm.acyclic (Order_thm.m_ord r)) ->
  Order_model.readOrderings rs Order_model.flags0 = Some (os, f) ->
  Forall2 (fun r m => length (m_subs m) = Order_thm.m_n r) rs (p_methods P) ->
  Forall2 (fun o m => Order_model.flatten (m_ord m) = o) os (p_methods P) ->
  Order_model.fTO f = true ->
  vis_conf false nr th sh true pr la gi ps (Order_model.fTO f) (Order_model.fPS f) (length (p_prim P)) = Some c -> uses c par E ->
  fringe_ok E -> dead_ends_ok P C E ->
  search P C E [] afuel fuel = Unsolvable -> forall plan, ~ solution P plan.
Proof.
  intros P C par rs os f nr th sh pr la gi ps c E afuel fuel WP HC AL NF WR ER F1 F2 TO VC UE FR DE SE.
  pose proof (read_total rs os f P WR ER TO F1 F2) as RT. rewrite TO in VC.
  refine (search_unsolvable vtable P C E [] afuel fuel WP HC FR _ DE SE). eapply visited_total_ok; eauto.
  - intros m Hm. apply (RT m Hm).
  - intros m Hm. apply (RT m Hm).
Qed.

(** ** C60: sets of sequences *)
Section Seq.
  Variables (P : problem) (C : config) (par : vpar).
  Variables (nr th sh pr la gi fto : bool) (c : vconf).
  Hypothesis WP : wf_problem P.
  Hypothesis HC : config_ok C.
  Hypothesis SM : seq_methods P.
  Hypothesis NF : 0 < p_nfacts P.
  Hypothesis VC : vis_conf false nr th sh true pr la gi true fto true (length (p_prim P)) = Some c.

  Lemma in_join N t l : In t (join_sep N l) -> t = N \/ exists a, In a l /\ In t a.
  Proof.
    clear. induction l as [|a [|b l] IH]; [intros []|intros Ht; right; exists a; split; [now left|exact Ht]|].
    change (join_sep N (a :: b :: l)) with (a ++ N :: join_sep N (b :: l)). intros Ht. apply in_app_iff in Ht as [Ht|[<-|Ht]]; [right; exists a; split; [now left|auto]|auto|].
    destruct (IH Ht) as [|(x & Hx & Q)]; auto. right. exists x. split; [now right|auto].
  Qed.

  Lemma seq_HS w l n s tn pi : history P C w l -> In n l -> Rep P (w_heap w) n s tn pi ->
    exists sq, vis_sequence c par (w_heap w) n = Some sq /\ sig_seq (vc_tasks c) tn sq /\ forall t, In t sq -> t < 2 ^ vc_bits c.
  Proof.
    intros H Hn R. destruct (vis_conf_fields _ _ _ _ _ _ _ _ _ _ _ _ _ VC) as (_ & _ & TP & _ & PS & NT & _ & _ & B). cbn [andb] in PS. specialize (B PS).
    destruct (seq_sequence P C c par WP HC SM PS TP NT w l n s tn pi H Hn R) as (sq & E & Sg). exists sq. split; auto. split; auto.
    destruct Sg as (_ & LB & Ls & CH & ->). intros t Ht. apply in_join in Ht as [->|(a & Ha & Ht)]; [lia|]. apply (Permutation_in _ (lex_sort_perm _)) in Ha.
    apply in_map_iff in Ha as (L & <- & HL). apply in_map_iff in Ht as (x & <- & Hx). assert (t_lab tn x < vc_tasks c); [|lia]. apply LB. apply (ch_in _ _ CH), in_concat. eauto.
  Qed.

  Lemma seq_run ops : Forall (o_ok P C) ops -> (forall o o', In o ops -> In o' ops -> o_hash c par o o') ->
    forall ans, vis_run c par [] (map (fun o => (o_w o, o_n o)) ops) = Some ans -> length ans = length ops /\ forall i o, nth_error ops i = Some o ->
        (nth_error ans i = Some false <-> exists j o', j < i /\ nth_error ops j = Some o' /\ o_same o o' /\ (nr = true \/ o_f par o' <= o_f par o)).
  Proof.
    intros FO HH ans EA. destruct (vis_conf_fields _ _ _ _ _ _ _ _ _ _ _ _ _ VC) as (OFF & NR & TP & TO & PS & NT & NB & _). cbn [andb] in PS.
    assert (MODE : vc_TO c || vc_PS c = true) by (rewrite PS; apply orb_true_r).
    pose proof (run_inv P C c par (sig_seq (vc_tasks c)) OFF MODE TP NF NB seq_HS (sig_seq_iso _) (sig_seq_same _) ops [] [] [] FO ltac:(constructor)
      ltac:(intros o o' H1 H2; rewrite app_nil_r in H2; auto) ltac:(constructor) (tab_inv_nil _)) as Q.
    rewrite EA in Q. destruct Q as [EL Q]. split; auto. intros i o G. rewrite (Q i o G). rewrite NR. split.
    - intros (o' & [[]|(j & Lj & Gj)] & SN & F). exists j, o'. auto.
    - intros (j & o' & Lj & Gj & SN & F). exists o'. split; [right; eauto|]. auto.
  Qed.

  Lemma seq_visited E : uses c par E -> visited_ok P C E [].
  Proof.
    intros UE. destruct (vis_conf_fields _ _ _ _ _ _ _ _ _ _ _ _ _ VC) as (OFF & NR & TP & TO & PS & NT & NB & _). cbn [andb] in PS.
    assert (MODE : vc_TO c || vc_PS c = true) by (rewrite PS; apply orb_true_r).
    pose proof (simple_step P C c par (sig_seq (vc_tasks c)) OFF MODE TP NF NB seq_HS (sig_seq_iso _)) as ST.
    exists (vinv P c (sig_seq (vc_tasks c))). split; [|split].
    - exists []. split; [apply tab_inv_nil|intros e []].
    - intros w l v n s tn pi L v' H Hn W R I Ev. destruct (ST w v n s tn L) as [S1 _]; [exists l, pi; auto|exact I|]. rewrite UE in Ev. unfold v_total in S1. rewrite Ev in S1. auto.
    - intros w l v n s tn pi L v' H Hn W R I Ev. destruct (ST w v n s tn L) as [_ S1]; [exists l, pi; auto|exact I|]. rewrite UE in Ev. unfold v_total in S1. rewrite Ev in S1. auto.
  Qed.
End Seq.

(** When the networks really are sets of sequences ([seq_methods]: every ordering is reduced with at most one successor; a method is
    totally ordered, or it decomposes the initial task, which is nowhere a subtask, and has no joins), a node is rejected exactly if an
    earlier node had the same state and an isomorphic network. *)
Theorem visited_sequences_exact : forall P C par nr th sh pr la gi fto c ops ans,
  wf_problem P -> config_ok C -> seq_methods P -> 0 < p_nfacts P ->
  vis_conf false nr th sh true pr la gi true fto true (length (p_prim P)) = Some c ->
  Forall (o_ok P C) ops -> (forall o o', In o ops -> In o' ops -> o_hash c par o o') ->
  vis_run c par [] (map (fun o => (o_w o, o_n o)) ops) = Some ans ->
  length ans = length ops /\ forall i o, nth_error ops i = Some o ->
    (nth_error ans i = Some false <-> exists j o', j < i /\ nth_error ops j = Some o' /\ same_node (o_s o) (o_tn o) (o_s o') (o_tn o') /\ (nr = true \/ o_f par o' <= o_f par o)).
Proof. intros. eapply seq_run; eauto. Qed.

Theorem visited_sequences_ok : forall P C par nr th sh pr la gi fto c E,
  wf_problem P -> config_ok C -> seq_methods P -> 0 < p_nfacts P ->
  vis_conf false nr th sh true pr la gi true fto true (length (p_prim P)) = Some c -> uses c par E -> visited_ok P C E [].
Proof. intros. eapply seq_visited; eauto. Qed.

(** ** C32 and the flag of C14: nodes that are not duplicates are rejected *)
Module Ex.
  Definition al (n : nat) : list Z := repeat 0%Z n.
  (** containedTasks and containedTaskCount: the names of the remaining tasks with their numbers. *)
  Definition contained (w : world) (n : node) : list (nat * nat) :=
    match topSort al (w_heap w) n with Some l => fold_left (fun m t => count_add t m) l [] | None => [] end.
  Definition par : vpar := {| vp_perm := fun l => l; vp_prime := fun i => (2 * i + 1)%N; vp_contained := contained; vp_f := fun _ n => n_cost n; vp_al := al |}.
  Lemma par_alloc : alloc_ok par.
  Proof. intros k. apply repeat_length. Qed.
  (** Depth first search. *)
  Definition env (c : vconf) (so : bool) : search_env vtable :=
    {| e_pop := fun l => match l with [] => None | x :: t => Some (x, t) end;
       e_push := fun n l => n :: l;
       v_insert := fun w v n => match insertVisi c par w v n with Some r => r | None => (true, v) end;
       h_dead := fun _ _ => false; rnd := fun i => i; subopt := so |}.
  Definition conf : config := {| c_eff := false; c_one := false; c_perm := fun l => l |}.
  Lemma conf_ok : config_ok conf.
  Proof. intros l. apply Permutation_refl. Qed.
  Lemma env_uses c so : uses c par (env c so).
  Proof. intros w v n. reflexivity. Qed.
  Lemma env_fringe c so : fringe_ok (env c so).
  Proof.
    split; [|split]; simpl.
    - intros [|x t] n fr' [= <- <-]. apply Permutation_refl.
    - intros [|x t]; [auto|discriminate].
    - intros. apply Permutation_refl.
  Qed.
  Lemma env_dead P c so : dead_ends_ok P conf (env c so).
  Proof. intros w l n s tn pi _ _ _ _ H. discriminate. Qed.

  (** Two methods for the initial task 3 with the subtasks a1, a2, b1, b2, c1, c2; a = 0 deletes fact 0 and needs it, b = 1 the same with fact 1, c = 2
      adds both. First method: both a before c1, both b before c2. Second method: a1, b1 before c1 and a2, b2 before c2. *)
  Definition mA := {| m_task := 3; m_subs := [0; 0; 1; 1; 2; 2]; m_ord := [(0, 4); (1, 4); (2, 5); (3, 5)] |}.
  Definition mB := {| m_task := 3; m_subs := [0; 0; 1; 1; 2; 2]; m_ord := [(0, 4); (1, 5); (2, 4); (3, 5)] |}.
  (** The initial task: it decomposes into 3. *)
  Definition m0 := {| m_task := 4; m_subs := [3]; m_ord := [] |}.
  Definition prob (init : nat) (ms : list method) : problem :=
    {| p_nfacts := 2; p_prim := [true; true; true; false; false]; p_prec := [[0]; [1]; []]; p_add := [[]; []; [0; 1]]; p_del := [[0]; [1]; []]; p_cost := [1; 1; 1];
       p_methods := ms; p_init := init; p_s0 := [0; 1]; p_goal := [] |}.
  (** The methods as they are read. *)
  Definition read (init : nat) (ms : list method) : option (list (list nat) * Order_model.flags) :=
    Order_model.readOrderings (map (fun m => (length (m_subs m), Nat.eqb (m_task m) init, Order_model.flatten (m_ord m))) ms) Order_model.flags0.

  Lemma two_levels m k : (forall i j, In (i, j) (m_ord m) -> i < k /\ k <= j) -> forall j, ~ m_lt m j j.
  Proof.
    intros B j H. assert (Q : forall a b, m_lt m a b -> a < k /\ k <= b); [|apply Q in H; lia].
    intros a b Q. induction Q as [a b Q|a b d _ IH1 _ IH2]; [apply B in Q; lia|lia].
  Qed.
  Lemma wf_m init ms m : m = mA \/ m = mB \/ m = m0 -> wf_method (prob init ms) m.
  Proof.
    intros [->|[->| ->]]; split; simpl; auto; try discriminate.
    1,4,7: intros t Ht; repeat (destruct Ht as [<-|Ht]; [lia|]); destruct Ht.
    1,3,5: intros j k Q; repeat (destruct Q as [Q|Q]; [injection Q as <- <-; lia|]); destruct Q.
    all: apply (two_levels _ 4); intros i j Q; simpl in Q; repeat (destruct Q as [Q|Q]; [injection Q as <- <-; lia|]); destruct Q.
  Qed.
  Lemma wf_prob init ms : init = 3 \/ init = 4 -> (forall m, In m ms -> m = mA \/ m = mB \/ m = m0) -> wf_problem (prob init ms).
  Proof.
    intros HI HM. split; simpl; auto.
    - intros t H. do 5 (destruct t as [|t]; simpl in H; [first [lia|discriminate]|]). destruct t; discriminate.
    - intros l f [H|[H|H]] Hf; repeat (destruct H as [<-|H]; [simpl in Hf; intuition lia|]); destruct H.
    - intros f [<-|[<-|[]]]; lia.
    - intros f [].
    - destruct HI as [->| ->]; reflexivity.
    - intros m Hm. apply wf_m. auto.
  Qed.
  Lemma in2 {A} (m a b : A) : In m [a; b] -> m = a \/ m = b.
  Proof. intros [<-|[<-|[]]]; auto. Qed.

  Definition default (nr : bool) (f : Order_model.flags) (nt : nat) : option vconf :=
    vis_conf false nr true true true true true true true (Order_model.fTO f) (Order_model.fPS f) nt.
  Definition default_c (nr : bool) (init : nat) (ms : list method) : option vconf := '(_, f) <- read init ms ;; default nr f 5.

  Lemma default_read nr init ms c : default_c nr init ms = Some c -> exists os f, read init ms = Some (os, f) /\ default nr f 5 = Some c.
  Proof. unfold default_c. intros E. apply obind_some in E as ([os f] & E1 & E2). exists os, f. auto. Qed.

  Lemma lost init ms c c' : wf_problem (prob init ms) -> search (prob init ms) conf (env c true) [] 50 200 = Unsolvable ->
    match search (prob init ms) conf (env c' false) [] 50 200 with Solved _ _ => true | _ => false end = true ->
    exists plan, solution (prob init ms) plan /\ ~ visited_ok (prob init ms) conf (env c true) [].
  Proof.
    intros WP U S. assert (Q : forall r, search (prob init ms) conf (env c' false) [] 50 200 = r -> match r with Solved _ _ => true | _ => false end = true -> exists plan, solution (prob init ms) plan).
    { intros [w n| | |] E H; try discriminate. exists (printed_plan n). eapply search_sound; eauto using conf_ok, env_fringe. }
    destruct (Q _ eq_refl S) as (plan & SO). exists plan. split; auto.
    intros V. eapply (search_unsolvable vtable (prob init ms) conf (env c true) [] 50 200); eauto using conf_ok, env_fringe, env_dead.
  Qed.

  (** A totally ordered problem: a = 0, the initial task 1 has the methods (a, a), (a), (a). *)
  Definition tprob (nf : nat) : problem :=
    {| p_nfacts := nf; p_prim := [true; false]; p_prec := [[]]; p_add := [[]]; p_del := [[]]; p_cost := [1];
       p_methods := [{| m_task := 1; m_subs := [0; 0]; m_ord := [(0, 1)] |}; {| m_task := 1; m_subs := [0]; m_ord := [] |}; {| m_task := 1; m_subs := [0]; m_ord := [] |}];
       p_init := 1; p_s0 := []; p_goal := [] |}.
  Lemma twf nf : wf_problem (tprob nf).
  Proof.
    split; simpl; auto.
    - intros t H. do 2 (destruct t as [|t]; simpl in H; [first [lia|discriminate]|]). destruct t; discriminate.
    - intros l f [H|[H|H]] Hf; repeat (destruct H as [<-|H]; [simpl in Hf; intuition lia|]); destruct H.
    - intros f [].
    - intros f [].
    - intros m [<-|[<-|[<-|[]]]]; (split; simpl; auto; try discriminate; [intros t Ht; repeat (destruct Ht as [<-|Ht]; [lia|]); destruct Ht|
        intros j k Q; repeat (destruct Q as [Q|Q]; [injection Q as <- <-; lia|]); destruct Q|
        apply (two_levels _ 1); intros i j Q; simpl in Q; repeat (destruct Q as [Q|Q]; [injection Q as <- <-; lia|]); destruct Q]).
  Qed.
  Lemma ttotal nf : total_methods (tprob nf).
  Proof.
    intros m [<-|[<-|[<-|[]]]] j k; cbn [m_subs length]; intros Lj Lk N; try lia.
    assert (Q : (j = 0 /\ k = 1) \/ (j = 1 /\ k = 0)) by lia. destruct Q as [[-> ->]|[-> ->]]; [left|right]; apply t_step; now left.
  Qed.
  Lemma treduced nf : reduced_methods (tprob nf).
  Proof. intros m [<-|[<-|[<-|[]]]] [|[|j]]; cbn; lia. Qed.

  (** The initial node and its three decompositions. *)
  Definition tnodes (nf : nat) : option (list (world * node)) :=
    '(w0, n0) <- init_node (tprob nf) ;;
    '(w1, n1) <- decompose (tprob nf) conf 5 w0 n0 0 0 ;;
    '(w2, n2) <- decompose (tprob nf) conf 5 w1 n0 0 1 ;;
    '(w3, n3) <- decompose (tprob nf) conf 5 w2 n0 0 2 ;;
    Some [(w0, n0); (w1, n1); (w2, n2); (w3, n3)].

  Lemma tops nf l : tnodes nf = Some l -> exists ops, map (fun o => (o_w o, o_n o)) ops = l /\ Forall (o_ok (tprob nf) conf) ops.
  Proof.
    intros E. unfold tnodes in E. apply obind_some in E as ([w0 n0] & E0 & E). apply obind_some in E as ([w1 n1] & E1 & E).
    apply obind_some in E as ([w2 n2] & E2 & E). apply obind_some in E as ([w3 n3] & E3 & E). injection E as <-.
    assert (H0 : history (tprob nf) conf w0 [n0]) by now apply h_init.
    assert (A0 : get (n_abs n0) 0 = Some 0) by (injection E0 as <- <-; reflexivity).
    assert (T0 : task_of (w_heap w0) 0 = Some 1) by (injection E0 as <- <-; reflexivity).
    assert (GR : forall w n mi w' n' l, history (tprob nf) conf w l -> task_of (w_heap w) 0 = Some 1 -> In n l -> get (n_abs n) 0 = Some 0 -> mi < 3 ->
       decompose (tprob nf) conf 5 w n 0 mi = Some (w', n') -> history (tprob nf) conf w' (n' :: l) /\ task_of (w_heap w') 0 = Some 1).
    { intros w n mi w' n' l H T Hn A M E. split.
      - apply (h_decompose (tprob nf) conf w l n 0 0 1 mi 5 w' n'); auto. destruct mi as [|[|[|mi]]]; [now left|right; now left|right; right; now left|lia].
      - unfold decompose in E. apply obind_some in E as ([wa na] & Ea & E). cbn [c_eff conf] in E. cbn [obind one_mod c_one conf] in E. 
        assert (w' = wa) by (unfold one_mod in E; cbn in E; congruence). subst w'. unfold decompose1 in Ea. inv_opt. destruct (forallb _ _); [|discriminate]. inv_opt. destruct x2. inv_opt. subst wa. cbn [w_heap].
        unfold task_of in *. destruct (w_heap w); [discriminate|]. cbn. exact T. }
    destruct (GR w0 n0 0 w1 n1 [n0] H0 T0 (or_introl eq_refl) A0 ltac:(lia) E1) as [H1 T1].
    destruct (GR w1 n0 1 w2 n2 [n1; n0] H1 T1 (or_intror (or_introl eq_refl)) A0 ltac:(lia) E2) as [H2 T2].
    destruct (GR w2 n0 2 w3 n3 [n2; n1; n0] H2 T2 (or_intror (or_intror (or_introl eq_refl))) A0 ltac:(lia) E3) as [H3 T3].
    assert (RP : forall w l n, history (tprob nf) conf w l -> In n l -> exists s tn, op_ok (tprob nf) conf w n s tn).
    { intros w l n H Hn. destruct (history_represents (tprob nf) conf w l n (twf nf) conf_ok H Hn) as (s & tn & pi & R & _). exists s, tn, l, pi. auto. }
    destruct (RP w0 _ n0 H0 (or_introl eq_refl)) as (s0 & t0 & K0). destruct (RP w1 _ n1 H1 (or_introl eq_refl)) as (s1 & t1 & K1).
    destruct (RP w2 _ n2 H2 (or_introl eq_refl)) as (s2 & t2 & K2). destruct (RP w3 _ n3 H3 (or_introl eq_refl)) as (s3 & t3 & K3).
    exists [{| o_w := w0; o_n := n0; o_s := s0; o_tn := t0 |}; {| o_w := w1; o_n := n1; o_s := s1; o_tn := t1 |}; {| o_w := w2; o_n := n2; o_s := s2; o_tn := t2 |}; {| o_w := w3; o_n := n3; o_s := s3; o_tn := t3 |}].
    split; [reflexivity|]. repeat constructor; assumption.
  Qed.
End Ex.

Import Ex.
(** The search with the isomorphism check loses solutions: the problem has a solution, and depth first search with the default options
    reports that it is unsolvable. [matching] maps every branch separately, the joins of the two networks are not compared. *)
Theorem visited_partial_refuted : exists P C rs os f c E plan,
  wf_problem P /\ config_ok C /\ fringe_ok E /\ dead_ends_ok P C E /\
  Order_model.readOrderings rs Order_model.flags0 = Some (os, f) /\ Forall2 (fun o m => Order_model.flatten (m_ord m) = o) os (p_methods P) /\
  Order_model.fTO f = false /\ Order_model.fPS f = false /\
  default true f (length (p_prim P)) = Some c /\ vc_GI c = true /\ uses c par E /\
  search P C E [] 50 200 = Unsolvable /\ solution P plan /\ ~ visited_ok P C E [].
Proof.
  set (P := prob 4 [m0; mA; mB]).
  assert (WP : wf_problem P) by (apply wf_prob; auto; intros m [<-|[<-|[<-|[]]]]; auto).
  destruct (default_c true 4 (p_methods P)) as [c|] eqn:EC; [|vm_compute in EC; discriminate].
  destruct (default_c false 4 (p_methods P)) as [c'|] eqn:EC'; [|vm_compute in EC'; discriminate].
  assert (U : search P conf (env c true) [] 50 200 = Unsolvable) by (vm_compute in EC; injection EC as <-; vm_compute; reflexivity).
  assert (S : match search P conf (env c' false) [] 50 200 with Solved _ _ => true | _ => false end = true) by (vm_compute in EC'; injection EC' as <-; vm_compute; reflexivity).
  destruct (lost _ _ c c' WP U S) as (plan & SO & NV). destruct (default_read _ _ _ _ EC) as (os & f & ER & EF).
  exists P, conf, (map (fun m => (length (m_subs m), Nat.eqb (m_task m) 4, Order_model.flatten (m_ord m))) (p_methods P)), os, f, c, (env c true), plan.
  split; [exact WP|]. split; [apply conf_ok|]. split; [apply env_fringe|]. split; [apply env_dead|]. split; [exact ER|].
  split; [vm_compute in ER; injection ER as <- _; repeat constructor|]. split; [vm_compute in ER; injection ER as _ <-; reflexivity|]. split; [vm_compute in ER; injection ER as _ <-; reflexivity|].
  split; [exact EF|]. split; [vm_compute in EC; injection EC as <-; reflexivity|]. split; [apply env_uses|]. exact (conj U (conj SO NV)).
Qed.

(** The same with the mode for parallel sequences, which is used although the initial methods have joins (see C14). *)
Theorem visited_sequences_refuted : exists P C rs os f c E plan,
  wf_problem P /\ config_ok C /\ fringe_ok E /\ dead_ends_ok P C E /\
  Order_model.readOrderings rs Order_model.flags0 = Some (os, f) /\ Forall2 (fun o m => Order_model.flatten (m_ord m) = o) os (p_methods P) /\
  Order_model.fTO f = false /\ Order_model.fPS f = true /\
  default true f (length (p_prim P)) = Some c /\ vc_PS c = true /\ uses c par E /\
  search P C E [] 50 200 = Unsolvable /\ solution P plan /\ ~ visited_ok P C E [].
Proof.
  set (P := prob 3 [mA; mB]).
  assert (WP : wf_problem P) by (apply wf_prob; auto; intros m [<-|[<-|[]]]; auto).
  destruct (default_c true 3 (p_methods P)) as [c|] eqn:EC; [|vm_compute in EC; discriminate].
  destruct (default_c false 3 (p_methods P)) as [c'|] eqn:EC'; [|vm_compute in EC'; discriminate].
  assert (U : search P conf (env c true) [] 50 200 = Unsolvable) by (vm_compute in EC; injection EC as <-; vm_compute; reflexivity).
  assert (S : match search P conf (env c' false) [] 50 200 with Solved _ _ => true | _ => false end = true) by (vm_compute in EC'; injection EC' as <-; vm_compute; reflexivity).
  destruct (lost _ _ c c' WP U S) as (plan & SO & NV). destruct (default_read _ _ _ _ EC) as (os & f & ER & EF).
  exists P, conf, (map (fun m => (length (m_subs m), Nat.eqb (m_task m) 3, Order_model.flatten (m_ord m))) (p_methods P)), os, f, c, (env c true), plan.
  split; [exact WP|]. split; [apply conf_ok|]. split; [apply env_fringe|]. split; [apply env_dead|]. split; [exact ER|].
  split; [vm_compute in ER; injection ER as <- _; repeat constructor|]. split; [vm_compute in ER; injection ER as _ <-; reflexivity|]. split; [vm_compute in ER; injection ER as _ <-; reflexivity|].
  split; [exact EF|]. split; [vm_compute in EC; injection EC as <-; reflexivity|]. split; [apply env_uses|]. exact (conj U (conj SO NV)).
Qed.

(** In total order mode an access can be undefined (here without the two hash values of the task network): 62 state bits, two bits for
    each task; (a, a) is stored, (a) is looked up. *)
Theorem visited_defined_refuted : exists P C c ops,
  wf_problem P /\ config_ok C /\ total_methods P /\ reduced_methods P /\ 0 < p_nfacts P /\
  vis_conf false true false false true true true true true true true (length (p_prim P)) = Some c /\
  Forall (o_ok P C) ops /\ (forall o o', In o ops -> In o' ops -> o_hash c par o o') /\
  vis_run c par [] (map (fun o => (o_w o, o_n o)) ops) = None.
Proof.
  destruct (vis_conf false true false false true true true true true true true 2) as [c|] eqn:EC; [|vm_compute in EC; discriminate].
  destruct (tnodes 62) as [l|] eqn:EL; [|vm_compute in EL; discriminate]. destruct (tops 62 l EL) as (ops & EO & FO).
  exists (tprob 62), conf, c, ops. split; [apply twf|]. split; [apply conf_ok|]. split; [apply ttotal|]. split; [apply treduced|]. split; [cbn; lia|]. split; [exact EC|]. split; auto. split.
  - intros o o' _ _ TH. vm_compute in EC. injection EC as <-. discriminate.
  - rewrite EO. vm_compute in EC. injection EC as <-. vm_compute in EL. injection EL as <-. vm_compute. reflexivity.
Qed.

Module Ex2.
  (** With one fact all accesses are defined; the second (a) is rejected, because the first one was stored. *)
  Example total_applies : exists c ops, vis_conf false true true true true true true true true true true 2 = Some c /\
    Forall (o_ok (tprob 1) conf) ops /\ vis_run c par [] (map (fun o => (o_w o, o_n o)) ops) = Some [true; true; true; false] /\
    exists i o j o', nth_error ops i = Some o /\ j < i /\ nth_error ops j = Some o' /\ same_tasks o o'.
  Proof.
    destruct (vis_conf false true true true true true true true true true true 2) as [c|] eqn:EC; [|vm_compute in EC; discriminate].
    destruct (tnodes 1) as [l|] eqn:EL; [|vm_compute in EL; discriminate]. destruct (tops 1 l EL) as (ops & EO & FO).
    assert (LO : length ops = 4). { apply (f_equal (@length _)) in EO. rewrite map_length in EO. vm_compute in EL. injection EL as <-. exact EO. }
    assert (ER : vis_run c par [] (map (fun o => (o_w o, o_n o)) ops) = Some [true; true; true; false]).
    { rewrite EO. vm_compute in EC. injection EC as <-. vm_compute in EL. injection EL as <-. vm_compute. reflexivity. }
    assert (HH : forall o o', In o ops -> In o' ops -> o_hash c par o o').
    { intros o o' Ho Ho' _ SN. rewrite Forall_forall in FO.
      assert (SM : seq_methods (tprob 1) \/ True) by auto. clear SM.
      apply (total_same (tprob 1) conf par true true true true true true true true c (twf 1) conf_ok par_alloc (ttotal 1) (treduced 1) EC o o' (FO o Ho) (FO o' Ho')) in SN.
      destruct SN as [_ (L & L' & HL & HL' & E)]. cbn [vp_contained par]. unfold contained.
      destruct (FO o Ho) as (l1 & pi & H & Hn & R). destruct (FO o' Ho') as (l2 & pi' & H' & Hn' & R').
      destruct (hist_total (tprob 1) conf (twf 1) conf_ok (ttotal 1) _ _ _ _ _ _ H Hn R) as [W T]. destruct (hist_total (tprob 1) conf (twf 1) conf_ok (ttotal 1) _ _ _ _ _ _ H' Hn' R') as [W' T'].
      destruct (topSort_linear _ _ _ _ _ _ W R al (fun k => repeat_length _ _)) as (M & EM & HM). destruct (topSort_linear _ _ _ _ _ _ W' R' al (fun k => repeat_length _ _)) as (M' & EM' & HM').
      rewrite EM, EM'. rewrite (total_lin_unique _ _ _ T HM HL), (total_lin_unique _ _ _ T' HM' HL'), E. reflexivity. }
    exists c, ops. split; auto. split; auto. split; auto.
    destruct (visited_total_exact (tprob 1) conf par true true true true true true true true c ops _ (twf 1) conf_ok par_alloc (ttotal 1) (treduced 1) ltac:(cbn; lia) EC FO HH ER) as [_ X].
    destruct (nth_error ops 3) as [o|] eqn:G; [|apply nth_error_None in G; lia].
    destruct (proj1 (X 3 o G) eq_refl) as (j & o' & Lj & Gj & ST & _). exists 3, o, j, o'. auto.
  Qed.

  (** Sequences: the methods of the initial task 4 are (a b), (c); (c), (a b) and (c b), (a). *)
  Definition sprob : problem :=
    {| p_nfacts := 1; p_prim := [true; true; true; false; false]; p_prec := [[]; []; []]; p_add := [[]; []; []]; p_del := [[]; []; []]; p_cost := [1; 1; 1];
       p_methods := [{| m_task := 4; m_subs := [0; 1; 2]; m_ord := [(0, 1)] |}; {| m_task := 4; m_subs := [2; 0; 1]; m_ord := [(1, 2)] |}; {| m_task := 4; m_subs := [2; 0; 1]; m_ord := [(0, 2)] |};
                     {| m_task := 3; m_subs := [0; 1]; m_ord := [(0, 1)] |}];
       p_init := 4; p_s0 := []; p_goal := [] |}.
  Lemma one_pair m a b : m_ord m = [(a, b)] -> a <> b -> forall j k, m_lt m j k -> j = a /\ k = b.
  Proof.
    intros E N j k Q. induction Q as [x y Q|x y z _ IH1 _ IH2]; [unfold m_before in Q; rewrite E in Q; destruct Q as [Q|[]]; injection Q as <- <-; auto|]. exfalso. apply N. destruct IH1, IH2. congruence.
  Qed.
  Example sequences_methods : seq_methods sprob.
  Proof.
    intros m [<-|[<-|[<-|[<-|[]]]]]; split; try (intros [|[|[|j]]]; cbn; lia); try (cbn; lia).
    - right. split; [reflexivity|]. intros j k i Q1 Q2. apply (one_pair _ 0 1) in Q1, Q2; auto. left. lia.
    - right. split; [reflexivity|]. intros j k i Q1 Q2. apply (one_pair _ 1 2) in Q1, Q2; auto. left. lia.
    - right. split; [reflexivity|]. intros j k i Q1 Q2. apply (one_pair _ 0 2) in Q1, Q2; auto. left. lia.
    - left. cbn [m_subs length]. intros j k Lj Lk N. assert (Q : (j = 0 /\ k = 1) \/ (j = 1 /\ k = 0)) by lia. destruct Q as [[-> ->]|[-> ->]]; [left|right]; apply t_step; now left.
  Qed.
  (** The first two methods give the same set of sequences, the third one another one. *)
  Definition sanswers : option (list bool) :=
    c <- vis_conf false true true true true true true true true false true 5 ;;
    '(w0, n0) <- init_node sprob ;;
    '(w1, n1) <- decompose sprob conf 5 w0 n0 0 0 ;;
    '(w2, n2) <- decompose sprob conf 5 w1 n0 0 1 ;;
    '(w3, n3) <- decompose sprob conf 5 w2 n0 0 2 ;;
    vis_run c par [] [(w0, n0); (w1, n1); (w2, n2); (w3, n3)].
  Example sequences_run : sanswers = Some [true; true; false; true].
  Proof. vm_compute. reflexivity. Qed.
End Ex2.

Print Assumptions visited_total_exact.
Print Assumptions visited_total_defined.
Print Assumptions visited_total_ok.
Print Assumptions visited_total_search.
Print Assumptions visited_sequences_exact.
Print Assumptions visited_sequences_ok.
Print Assumptions visited_partial_refuted.
Print Assumptions visited_sequences_refuted.
Print Assumptions visited_defined_refuted.
