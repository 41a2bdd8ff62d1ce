(** Proofs about the visited list: task sequences determine networks, the table is a map, and what is stored in it. *)
From Coq Require Import NArith ZArith Relations.
From Verif Require Import Base Rel Htn_model Htn_spec Htn_sem Htn_iso Htn_rep Htn_history Htn_proof Htn_search Htn_hist Heap_model Tab_proof Trie_model Trie_proof Trie_thm Vis_model VisTop_proof.

(** ** Bits *)
Lemma bits_of_length k x : length (bits_of k x) = k.
Proof. unfold bits_of. now rewrite map_length, seq_length. Qed.

Lemma bits_of_inj k x y : x < 2 ^ k -> y < 2 ^ k -> bits_of k x = bits_of k y -> x = y.
Proof.
  intros Hx Hy E. apply Nat.bits_inj. intros i. destruct (Nat.lt_ge_cases i k) as [L|G].
  - apply (f_equal (fun l => nth i l false)) in E. unfold bits_of in E.
    rewrite (nth_indep _ false (Nat.testbit x 0)) in E by (now rewrite map_length, seq_length).
    rewrite (nth_indep (map (Nat.testbit y) _) false (Nat.testbit y 0)) in E by (now rewrite map_length, seq_length).
    rewrite !map_nth, !seq_nth in E by auto. exact E.
  - assert (H : forall z, z < 2 ^ k -> Nat.testbit z i = false).
    { intros z Hz. destruct (Nat.eq_dec z 0) as [->|NZ]; [apply Nat.bits_0|]. apply Nat.bits_above_log2. apply Nat.log2_lt_pow2; [lia|].
      eapply Nat.lt_le_trans; [exact Hz|]. apply Nat.pow_le_mono_r; lia. }
    now rewrite !H.
Qed.

Lemma firstn_bits k x l : firstn k (bits_of k x ++ l) = bits_of k x.
Proof. rewrite firstn_app, bits_of_length, Nat.sub_diag, firstn_O, app_nil_r. rewrite <- (bits_of_length k x) at 1. apply firstn_all. Qed.
Lemma skipn_bits k x l : skipn k (bits_of k x ++ l) = l.
Proof. rewrite skipn_app, bits_of_length, Nat.sub_diag, skipn_O. rewrite <- (bits_of_length k x) at 1. now rewrite skipn_all. Qed.

Lemma flat_bits_inj k l : 0 < k -> (forall x, In x l -> x < 2 ^ k) -> forall l', (forall x, In x l' -> x < 2 ^ k) ->
  flat_map (bits_of k) l = flat_map (bits_of k) l' -> l = l'.
Proof.
  intros K. induction l as [|x l IH]; intros H [|y l'] H' E; auto; cbn in E.
  - apply (f_equal (@length bool)) in E. rewrite app_length, bits_of_length in E. cbn in E. lia.
  - apply (f_equal (@length bool)) in E. rewrite app_length, bits_of_length in E. cbn in E. lia.
  - assert (E1 : bits_of k x = bits_of k y).
    { apply (f_equal (firstn k)) in E. now rewrite !firstn_bits in E. }
    assert (E2 : flat_map (bits_of k) l = flat_map (bits_of k) l').
    { apply (f_equal (skipn k)) in E. now rewrite !skipn_bits in E. }
    f_equal.
    + apply (bits_of_inj k); auto; [apply H|apply H']; now left.
    + apply IH; auto; intros z Hz; [apply H|apply H']; now right.
Qed.

(** ** The hash table *)
Lemma tbl_get_set v b t b' : tbl_get (tbl_set v b t) b' = if N.eqb b' b then t else tbl_get v b'.
Proof.
  induction v as [|[b0 t0] r IH]; cbn.
  - destruct (N.eqb b' b); auto.
  - destruct (N.eqb_spec b b0) as [<-|N]; cbn.
    + destruct (N.eqb_spec b' b) as [E|]; auto.
    + rewrite IH. destruct (N.eqb_spec b' b0) as [E|]; auto. destruct (N.eqb_spec b' b); congruence.
Qed.

(** The table holds the map [m] from buckets and keys. *)
Definition tabmap (v : vtable) (m : N -> list bool -> option payload) : Prop := forall b, tmap (tbl_get v b) (m b).
Definition tabfull (v : vtable) : Prop := forall b, tfull (tbl_get v b).
Lemma tabmap_nil : tabmap [] (fun _ _ => None).
Proof. intros b. split; [constructor|reflexivity]. Qed.
Lemma tabfull_nil : tabfull [].
Proof. intros b. exact I. Qed.

Definition mupd (m : N -> list bool -> option payload) (b : N) (K : list bool) (p : option payload) : N -> list bool -> option payload :=
  fun b' k => if N.eqb b' b then if list_eq_dec bool_dec k K then p else m b' k else m b' k.

(** One access (VisitedList.cpp 519-526). *)
Definition tbl_access (v : vtable) (b : N) (K : list bool) (acc : option payload -> option payload) : option (vtable * option payload) :=
  '(t, old) <- access (tbl_get v b) (K, acc) ;; Some (tbl_set v b t, old).

Lemma tbl_access_ok v m b K acc : K <> [] -> tabmap v m ->
  match tbl_access v b K acc with
  | Some (v', old) => old = m b K /\ tabmap v' (mupd m b K (acc (m b K))) /\ ((forall o, acc o <> None) -> tabfull v -> tabfull v')
  | None => length K mod 64 = 0 /\ (tabfull v -> exists K', m b K' <> None /\ exists r, r <> [] /\ K' = K ++ r)
  end.
Proof.
  intros NK TM. unfold tbl_access. pose proof (access_ok (tbl_get v b) (m b) K acc NK (TM b)) as A.
  destruct (access (tbl_get v b) (K, acc)) as [[t old]|]; cbn [obind].
  - destruct A as (_ & -> & TM' & TF). split; auto. split.
    + intros b'. rewrite tbl_get_set. unfold mupd. destruct (N.eqb_spec b' b) as [->|]; [exact TM'|]. destruct (TM b') as [W F]. split; auto.
    + intros NN FU b'. rewrite tbl_get_set. destruct (N.eqb b' b); auto.
  - destruct A as [A1 A2]. split; auto.
Qed.

(** insertVisi in terms of [tbl_access]. *)
Definition v_act (c : vconf) (par : vpar) (w : world) (n : node) (old : option payload) : option (bool * payload) :=
  if vc_TO c || vc_PS c || negb (vc_GI c) then Some (cost_access c (vp_f par w n) old)
  else gi_access (vp_perm par) (w_heap w) (vp_f par w) n old.
Definition v_acc (c : vconf) (par : vpar) (w : world) (n : node) (old : option payload) : option payload :=
  match v_act c par w n old with Some (_, p) => Some p | None => old end.

Lemma insertVisi_eq c par w v n : vc_off c = false ->
  insertVisi c par w v n =
    (sq <- vis_sequence c par (w_heap w) n ;;
     key <- vis_key c (w_heap w) n sq ;;
     '(v', old) <- tbl_access v (vis_bucket c par w n sq) key (v_acc c par w n) ;;
     '(ok, _) <- v_act c par w n old ;;
     Some (ok, v')).
Proof.
  intros OFF. unfold insertVisi. rewrite OFF. destruct (vis_sequence c par (w_heap w) n) as [sq|]; [cbn [obind]|reflexivity].
  destruct (vis_key c (w_heap w) n sq) as [key|]; [cbn [obind]|reflexivity].
  unfold tbl_access, access. cbn [fst snd]. destruct (state2Int key) as [words pad].
  change (fun old => match (if vc_TO c || vc_PS c || negb (vc_GI c) then Some (cost_access c (vp_f par w n) old) else gi_access (vp_perm par) (w_heap w) (vp_f par w) n old) with Some (_, p) => Some p | None => old end) with (v_acc c par w n).
  destruct (tbl_get v (vis_bucket c par w n sq)) as [|pay bl fi gf gl va z o]; cbn [obind].
  - unfold v_act. destruct (if vc_TO c || vc_PS c || negb (vc_GI c) then _ else _) as [[ok p]|]; reflexivity.
  - destruct (t_insert (v_acc c par w n) _ words pad) as [[t old]|]; cbn [obind]; [|reflexivity].
    unfold v_act. destruct (if vc_TO c || vc_PS c || negb (vc_GI c) then _ else _) as [[ok p]|]; reflexivity.
Qed.

(** ** Networks of histories *)

Section HistNet.
  Variables (P : problem) (C : config).
  Hypothesis WP : wf_problem P.
  Hypothesis HC : forall l, Permutation l (c_perm C l).
  Variables (T : tnet -> Prop) (HP : list pstep -> Prop).
  Hypothesis T0 : T (initial_network P).
  Hypothesis Tm : forall tn x, wf_tn tn -> T tn -> minimal tn x -> T (minus tn x).
  Hypothesis Td : forall tn x m, wf_tn tn -> T tn -> minimal tn x -> decomposes P tn x m (decF tn x m) -> T (decF tn x m).
  Hypothesis H0 : HP [{| ps_task := p_init P; ps_succ := []; ps_parent := 0; ps_pos := 0 |}].
  Hypothesis Hd : forall h x ps m inst, HP h -> get h x = Some ps -> In m (p_methods P) -> HP (h ++ method_steps m (length h) inst (ps_succ ps)).

  (** Properties of networks and of the heap that progression preserves hold for all nodes. *)
  Lemma history_net w l n : history P C w l -> In n l -> wf_heap P (w_heap w) /\ HP (w_heap w) /\ exists s tn pi, Rep P (w_heap w) n s tn pi /\ T tn.
  Proof.
    intros H Hn. revert n Hn. apply (history_pres P C (fun h i n => wf_heap P h /\ HP h /\ exists s tn pi, Rep P h n s tn pi /\ T tn)); auto.
    - intros fuel w0 n i w' n' (W & HH & s & tn & pi & R & HT) E.
      destruct (apply1_rep P C fuel w0 n i w' n' s tn pi HC W R E) as (x & ps & _ & _ & _ & M & _ & Eh & R'). rewrite Eh in *. split; [auto|]. split; [auto|].
      eexists _, _, _. split; [exact R'|]. apply Tm; auto. apply R.
    - intros h i n (W & HH & s & tn & pi & R & HT). split; auto. split; auto. exists s, tn, pi. split; auto. split; apply R.
    - intros w0 n i mi w' n' x tk (W & HH & s & tn & pi & R & HT) Gx Tx Hm E.
      destruct (decompose1_rep_full P C w0 n i mi w' n' s tn pi (wf_methods _ WP) W R E) as (y & ps & m & pi' & _ & Gy & Gm & M & Eh & W' & D & _ & _ & _ & R').
      { intros z ps m Gz Gp Gm. rewrite Gz in Gx. injection Gx as ->. unfold task_of in Tx. rewrite Gp in Tx. cbn in Tx. injection Tx as <-.
        unfold task_to_methods in Hm. apply filter_In in Hm as [_ Hm]. rewrite Gm in Hm. apply Nat.eqb_eq in Hm. auto. }
      split; auto. split; [rewrite Eh; eapply Hd; eauto; eapply nth_error_In; eauto|]. eexists _, _, _. split; [exact R'|]. apply Td; auto. apply R.
    - intros h e i i' n q (W & HH & s & tn & pi & R & HT) (W' & HH' & _) _. split; auto. split; auto. exists s, tn, pi. split; auto. now apply Rep_ext.
    - intros w0 n E. destruct (init_rep P WP w0 n E) as (W & (R & _) & _). split; auto. split; [|eexists _, _, _; split; [exact R|exact T0]].
      unfold init_node in E. inv_opt. subst. exact H0.
  Qed.
End HistNet.

(** ** Totally ordered networks *)
Definition total_net (tn : tnet) : Prop := forall x y, t_in tn x -> t_in tn y -> x = y \/ t_ord tn x y \/ t_ord tn y x.

Lemma total_minus tn x : total_net tn -> total_net (minus tn x).
Proof.
  intros T a b [Ha Na] [Hb Nb]. cbn in *. destruct (T a b Ha Hb) as [|[|]]; auto.
Qed.

Lemma total_dec P tn x m : wf_tn tn -> total_net tn -> decomposes P tn x m (decF tn x m) ->
  (forall j k, j < length (m_subs m) -> k < length (m_subs m) -> j <> k -> m_lt m j k \/ m_lt m k j) -> total_net (decF tn x m).
Proof.
  intros W T D TM a b Ha Hb. apply (d_in' _ _ _ _ _ D) in Ha, Hb.
  assert (O := d_ord _ _ _ _ _ D). pose proof (d_in _ _ _ _ _ D) as Hx.
  destruct Ha as [[Ha Na]|(j & Lj & ->)], Hb as [[Hb Nb]|(k & Lk & ->)].
  - destruct (T a b Ha Hb) as [|[Q|Q]]; auto; right; [left|right]; apply O; left; auto.
  - right. destruct (T a x Ha Hx) as [|[Q|Q]]; [contradiction| |].
    + left. apply O. right. right. right. eauto 7.
    + right. apply O. right. right. left. eauto 7.
  - right. destruct (T b x Hb Hx) as [|[Q|Q]]; [contradiction| |].
    + right. apply O. right. right. right. eauto 7.
    + left. apply O. right. right. left. eauto 7.
  - destruct (Nat.eq_dec j k) as [->|Njk]; auto. right. destruct (TM j k Lj Lk Njk) as [Q|Q]; [left|right]; apply O; right; left; eauto 10.
Qed.

Definition total_methods (P : problem) : Prop := forall m, In m (p_methods P) ->
  forall j k, j < length (m_subs m) -> k < length (m_subs m) -> j <> k -> m_lt m j k \/ m_lt m k j.

Lemma iso_total f a b : iso f a b -> total_net a -> total_net b.
Proof.
  intros Is T y y' Hy Hy'. destruct (iso_surj _ _ _ Is y Hy) as (x & F). destruct (iso_surj _ _ _ Is y' Hy') as (x' & F').
  destruct (iso_dom _ _ _ Is _ _ F) as [Hx _], (iso_dom _ _ _ Is _ _ F') as [Hx' _].
  destruct (T x x' Hx Hx') as [->|[Q|Q]]; [left; eapply (iso_fun _ _ _ Is); eauto|right; left; apply (iso_ord _ _ _ Is _ _ _ _ F F'); auto|
    right; right; apply (iso_ord _ _ _ Is _ _ _ _ F' F); auto].
Qed.

(** Totally ordered networks with equal sequences of task names are isomorphic. *)
Lemma total_iso a b La Lb : wf_tn a -> wf_tn b -> total_net a -> total_net b -> linearisation a La -> linearisation b Lb ->
  map (t_lab a) La = map (t_lab b) Lb -> exists f, iso f a b.
Proof.
  intros Wa Wb Ta Tb (Na & Ia & Oa) (Nb & Ib & Ob) E.
  assert (LL : length La = length Lb) by (apply (f_equal (@length nat)) in E; now rewrite !map_length in E).
  assert (ORD : forall tn L, wf_tn tn -> total_net tn -> NoDup L -> (forall x, In x L <-> t_in tn x) ->
     (forall i j x y, nth_error L i = Some x -> nth_error L j = Some y -> t_ord tn x y -> i < j) ->
     forall i j x y, nth_error L i = Some x -> nth_error L j = Some y -> (t_ord tn x y <-> i < j)).
  { intros tn L W T N I O i j x y Gi Gj. split; [eapply O; eauto|]. intros Lij.
    destruct (T x y) as [->|[Q|Q]]; auto; try (apply I; eapply nth_error_In; eauto).
    - assert (i = j); [|lia]. apply (proj1 (NoDup_nth_error L) N); [apply nth_error_Some; congruence|congruence].
    - pose proof (O j i y x Gj Gi Q). lia. }
  exists (fun x y => exists i, nth_error La i = Some x /\ nth_error Lb i = Some y). split.
  - intros x y (i & Gx & Gy). split; [apply Ia|apply Ib]; eapply nth_error_In; eauto.
  - intros x Hx. apply Ia in Hx. apply In_nth_error in Hx as (i & Gi).
    destruct (nth_error Lb i) as [y|] eqn:Gy; eauto. apply nth_error_None in Gy. assert (i < length La) by (apply nth_error_Some; congruence). lia.
  - intros x Hx. apply Ib in Hx. apply In_nth_error in Hx as (i & Gi).
    destruct (nth_error La i) as [y|] eqn:Gy; eauto. apply nth_error_None in Gy. assert (i < length Lb) by (apply nth_error_Some; congruence). lia.
  - intros x y y' (i & Gx & Gy) (j & Gx' & Gy'). assert (i = j); [|congruence].
    apply (proj1 (NoDup_nth_error La) Na); [apply nth_error_Some; congruence|congruence].
  - intros x x' y (i & Gx & Gy) (j & Gx' & Gy'). assert (i = j); [|congruence].
    apply (proj1 (NoDup_nth_error Lb) Nb); [apply nth_error_Some; congruence|congruence].
  - intros x y (i & Gx & Gy). apply (map_nth_error (t_lab a)) in Gx. apply (map_nth_error (t_lab b)) in Gy. rewrite E in Gx. congruence.
  - intros x y x' y' (i & Gx & Gy) (j & Gx' & Gy').
    rewrite (ORD a La Wa Ta Na Ia Oa i j x x' Gx Gx'), (ORD b Lb Wb Tb Nb Ib Ob i j y y' Gy Gy'). tauto.
Qed.

Lemma NoDup_map_in {A B} (f : A -> B) l : NoDup l -> (forall x y, In x l -> In y l -> f x = f y -> x = y) -> NoDup (map f l).
Proof.
  induction 1 as [|x l Hx N IH]; intros F; cbn; constructor.
  - rewrite in_map_iff. intros (y & E & Hy). apply Hx. rewrite <- (F y x); auto; [now right|now left].
  - apply IH. intros; apply F; auto; now right.
Qed.

(** ** Task sequences of nodes *)
Section Node.
  Variables (P : problem) (h : list pstep) (n : node) (s : state) (tn : tnet) (pi : nat -> tid).
  Hypothesis W : wf_heap P h.
  Hypothesis R : Rep P h n s tn pi.

  Lemma topSort_linear al : (forall k, length (al k) = k) ->
    exists L, topSort al h n = Some (map (t_lab tn) L) /\ linearisation tn L.
  Proof.
    intros AL. destruct (topSort_ok al h n AL (wh_closed _ _ W) (r_lt _ _ _ _ _ _ R) (r_nodup _ _ _ _ _ _ R)) as (L & E & N & I & O).
    - intros i Hi. eapply live_acyclic; eauto.
    - intros i r Hi Hr. eapply head_no_pred; eauto.
    - exists (map pi L). split; [|split; [|split]].
      + rewrite E. f_equal. rewrite map_map. apply map_ext_in. intros x Hx. apply I in Hx.
        destruct (get_some h x) as (ps & G); [eapply live_lt; eauto; apply R|]. rewrite (r_lab _ _ _ _ _ _ R x ps) by auto. unfold tsk. now rewrite G.
      + apply NoDup_map_in; auto. intros x y Hx Hy. apply (r_inj _ _ _ _ _ _ R); now apply I.
      + intros x. rewrite in_map_iff, (r_in _ _ _ _ _ _ R). split; intros (i & H1 & H2); exists i; [split; [now apply I|auto]|split; [auto|now apply I]].
      + intros i j x y Gi Gj Q. rewrite nth_error_map in Gi, Gj.
        destruct (nth_error L i) as [a|] eqn:Ga; [|discriminate]. destruct (nth_error L j) as [b|] eqn:Gb; [|discriminate].
        injection Gi as <-. injection Gj as <-. assert (La : live h n a) by (eapply I, nth_error_In; eauto). assert (Lb : live h n b) by (eapply I, nth_error_In; eauto).
        apply (r_ord _ _ _ _ _ _ R) in Q; auto.
        assert (POS : forall a b i j, tc h a b -> live h n a -> nth_error L i = Some a -> nth_error L j = Some b -> i < j).
        { clear - O I N R W. intros a b i j Q. revert i j. apply clos_trans_t1n in Q. induction Q as [a b Ed|a c b Ed Q IH]; intros i j La Ga Gb.
          - apply nth_error_split in Gb as (L1 & L2 & EL & <-). pose proof (O L1 b L2 EL a La Ed) as X. apply In_nth_error in X as (k & X).
            assert (k < length L1) by (apply nth_error_Some; congruence). assert (i = k); [|lia].
            apply (proj1 (NoDup_nth_error L) N); [apply nth_error_Some; congruence|]. rewrite Ga, EL, nth_error_app1; auto.
          - assert (Lc : live h n c) by (eapply live_step; [exact La|now apply rt_step]).
            assert (X := Lc). apply I in X. apply In_nth_error in X as (k & X). specialize (IH k j Lc X Gb).
            assert (i < k); [|lia]. apply nth_error_split in X as (L1 & L2 & EL & <-). pose proof (O L1 c L2 EL a La Ed) as X. apply In_nth_error in X as (k & X).
            assert (k < length L1) by (apply nth_error_Some; congruence). assert (i = k); [|lia].
            apply (proj1 (NoDup_nth_error L) N); [apply nth_error_Some; congruence|]. rewrite Ga, EL, nth_error_app1; auto. }
        eapply POS; eauto.
  Qed.

  (** The recursion of to_dfs ends. *)
  Lemma to_dfs_defined x : live h n x -> exists l, to_dfs (length h) h x = Some l.
  Proof.
    assert (G : forall f x vis, live h n x -> NoDup vis -> (forall v, In v vis -> v < length h /\ tc h v x) -> length vis + f = length h -> exists l, to_dfs f h x = Some l).
    { induction f as [|f IH]; intros y vis Ly N V Len.
      - exfalso. assert (Q : length (y :: vis) <= length (seq 0 (length h))).
        { apply NoDup_incl_length; [constructor; auto; intros Hy; apply V in Hy as [_ Hy]; eapply live_acyclic; eauto|].
          intros v [<-|Hv]; apply in_seq; [|apply V in Hv; lia]. assert (y < length h) by (eapply live_lt; eauto; apply R). lia. }
        rewrite seq_length in Q. cbn in Q. lia.
      - cbn [to_dfs]. destruct (get_some h y) as (ps & Gp); [eapply live_lt; eauto; apply R|]. rewrite Gp. cbn [obind].
        destruct (ps_succ ps) as [|z r] eqn:Es; [eauto|]. assert (Ez : edge h y z) by (exists ps; rewrite Es; split; [auto|now left]).
        destruct (IH z (y :: vis)) as (l & El).
        + eapply live_step; [exact Ly|now apply rt_step].
        + constructor; auto. intros Hy. apply V in Hy as [_ Hy]. eapply live_acyclic; eauto.
        + intros v [<-|Hv]; [split; [eapply live_lt; eauto; apply R|now apply t_step]|]. apply V in Hv as [Lv Hv]. split; auto. eapply t_trans; [exact Hv|now apply t_step].
        + cbn. lia.
        + rewrite El. cbn. eauto. }
    intros Lx. apply (G (length h) x []); auto; [constructor|intros v []].
  Qed.
End Node.

(** ** Sets of sequences *)

(** Two tasks before a third one are comparable. *)
Definition no_join_net (tn : tnet) : Prop := forall x y z, t_ord tn y x -> t_ord tn z x -> y = z \/ t_ord tn y z \/ t_ord tn z y.
(** A task with name [t] is alone. *)
Definition alone (t : nat) (tn : tnet) : Prop := forall x y, t_in tn x -> t_lab tn x = t -> t_in tn y -> y = x.

(** Every step has at most one successor. *)
Definition one_succ (h : list pstep) : Prop := forall i ps, get h i = Some ps -> length (ps_succ ps) <= 1.

Record seq_method (P : problem) (m : method) : Prop := {
  sm_out : forall j, length (filter (fun o => Nat.eqb (fst o) j) (m_ord m)) <= 1;
  sm_shape : (forall j k, j < length (m_subs m) -> k < length (m_subs m) -> j <> k -> m_lt m j k \/ m_lt m k j) \/
             (m_task m = p_init P /\ forall j k i, m_lt m j i -> m_lt m k i -> j = k \/ m_lt m j k \/ m_lt m k j);
  sm_init : ~ In (p_init P) (m_subs m) }.
Definition seq_methods (P : problem) : Prop := forall m, In m (p_methods P) -> seq_method P m.

Lemma iso_no_join f a b : wf_tn b -> iso f a b -> no_join_net a -> no_join_net b.
Proof.
  intros Wb Is N x y z Oy Oz. destruct (wt_dom _ Wb _ _ Oy) as [Hy Hx], (wt_dom _ Wb _ _ Oz) as [Hz _].
  destruct (iso_surj _ _ _ Is x Hx) as (x' & Fx), (iso_surj _ _ _ Is y Hy) as (y' & Fy), (iso_surj _ _ _ Is z Hz) as (z' & Fz).
  apply (iso_ord _ _ _ Is _ _ _ _ Fy Fx) in Oy. apply (iso_ord _ _ _ Is _ _ _ _ Fz Fx) in Oz.
  destruct (N _ _ _ Oy Oz) as [->|[Q|Q]]; [left; eapply (iso_fun _ _ _ Is); eauto|right; left; apply (iso_ord _ _ _ Is _ _ _ _ Fy Fz); auto|
    right; right; apply (iso_ord _ _ _ Is _ _ _ _ Fz Fy); auto].
Qed.

Lemma snoc_inj {A} (x : list A) j k : x ++ [j] = x ++ [k] -> j = k.
Proof. intros E. apply app_inv_head in E. congruence. Qed.

Lemma no_join_minus tn x : no_join_net tn -> no_join_net (minus tn x).
Proof. intros N a b c (O1 & H1 & H2) (O2 & H3 & H4). cbn in *. destruct (N _ _ _ O1 O2) as [|[|]]; auto. Qed.

Lemma no_join_dec P tn x m : wf_problem P -> seq_method P m -> wf_tn tn -> minimal tn x -> no_join_net tn -> alone (p_init P) tn ->
  decomposes P tn x m (decF tn x m) -> no_join_net (decF tn x m) /\ alone (p_init P) (decF tn x m).
Proof.
  intros WP SM W M N A D. assert (O := d_ord _ _ _ _ _ D). pose proof (d_in _ _ _ _ _ D) as Hx.
  assert (NEW : forall j, ~ t_in tn (x ++ [j])).
  { intros j Hj. assert (E : x = x ++ [j]) by (apply (wt_anti _ W); auto; exists [j]; auto). apply (f_equal (@length nat)) in E. rewrite app_length in E. cbn in E. lia. }
  split.
  - intros a b c Ob Oc. rewrite (O b a) in Ob. rewrite (O c a) in Oc. rewrite (O b c), (O c b).
    destruct Ob as [(Hb & Ha & Nb & Na & Ob)|[(jb & ka & Ljb & Lka & -> & -> & Ob)|[(jb & Ljb & -> & Ha & Na & Ob)|(ka & _ & _ & Hb & Nb & Ob)]]];
    destruct Oc as [(Hc & Ha' & Nc & Na' & Oc)|[(jc & ka' & Ljc & Lka' & -> & Ea & Oc)|[(jc & Ljc & -> & Ha' & Na' & Oc)|(ka' & _ & _ & Hc & Nc & Oc)]]];
    try (exfalso; eapply (proj2 M); eauto; fail); try (exfalso; subst; eapply NEW; eauto; fail).
    + destruct (N _ _ _ Ob Oc) as [|[Q|Q]]; auto; right; [left|right]; left; auto.
    + destruct (N _ _ _ Ob Oc) as [->|[Q|Q]]; [congruence| |].
      * exfalso. eapply (proj2 M); eauto.
      * right. right. right. right. left. eauto 7.
    + apply snoc_inj in Ea. subst ka'. destruct (Nat.eq_dec jb jc) as [->|Nj]; [auto|]. right.
      destruct (sm_shape _ _ SM) as [S|[_ S]].
      * destruct (S jb jc) as [Q|Q]; auto; [left|right]; right; left; eauto 10.
      * destruct (S jb jc ka) as [|[Q|Q]]; auto; [contradiction|left|right]; right; left; eauto 10.
    + destruct (N _ _ _ Ob Oc) as [<-|[Q|Q]]; [congruence| |].
      * right. left. right. right. left. eauto 7.
      * exfalso. eapply (proj2 M); eauto.
    + destruct (Nat.eq_dec jb jc) as [->|Nj]; [auto|]. right.
      destruct (sm_shape _ _ SM) as [S|[Ei S]].
      * destruct (S jb jc) as [Q|Q]; auto; [left|right]; right; left; eauto 10.
      * exfalso. apply Na. eapply A; eauto. now rewrite (d_lab _ _ _ _ _ D).
  - intros a b Ha La Hb. apply (d_in' _ _ _ _ _ D) in Ha. destruct Ha as [[Ha Na]|(j & Lj & ->)].
    + exfalso. apply Na. symmetry. apply A; auto. rewrite <- (d_lab_old _ _ _ _ _ D a); auto.
    + exfalso. destruct (nth_error (m_subs m) j) as [t|] eqn:G; [|apply nth_error_None in G; lia].
      rewrite (d_lab_new _ _ _ _ _ D j t G) in La. subst. apply (sm_init _ _ SM). eapply nth_error_In; eauto.
Qed.

Lemma one_succ_ext P h x ps m inst : one_succ h -> get h x = Some ps -> seq_method P m -> one_succ (h ++ method_steps m (length h) inst (ps_succ ps)).
Proof.
  intros O G SM i q Gi. destruct (Nat.lt_ge_cases i (length h)) as [L|L]; [rewrite get_app_l in Gi by auto; eauto|].
  unfold get in Gi. rewrite nth_error_app2 in Gi by auto. set (j := i - length h) in *.
  assert (Lj : j < length (method_steps m (length h) inst (ps_succ ps))) by (apply nth_error_Some; congruence). rewrite method_steps_length in Lj.
  destruct (nth_error (m_subs m) j) as [t|] eqn:Gt; [|apply nth_error_None in Gt; lia].
  apply (method_steps_get m (length h) inst (ps_succ ps)) in Gt. unfold get in Gt. rewrite Gt in Gi. injection Gi as <-. cbn.
  destruct (is_last m j); [eauto|]. rewrite map_length. apply (sm_out _ _ SM).
Qed.

(** ** Sorting and joining sequences *)
Lemma lex_insert_perm a l : Permutation (lex_insert a l) (a :: l).
Proof.
  induction l as [|b l IH]; cbn; auto. destruct (lex_le a b); auto. rewrite IH. apply perm_swap.
Qed.
Lemma lex_sort_perm l : Permutation (lex_sort l) l.
Proof. induction l as [|a l IH]; cbn; auto. rewrite lex_insert_perm. now apply perm_skip. Qed.

Lemma sep_split (N : nat) a b r r' : ~ In N a -> ~ In N b -> a ++ N :: r = b ++ N :: r' -> a = b /\ r = r'.
Proof.
  revert b. induction a as [|x a IH]; intros [|y b] Ha Hb E; cbn in *.
  - split; congruence.
  - exfalso. apply Hb. left. congruence.
  - exfalso. apply Ha. left. congruence.
  - injection E as -> E. apply IH in E as [-> ->]; auto.
Qed.

Lemma join_sep_inj N l : forall l', (forall a, In a l -> a <> [] /\ ~ In N a) -> (forall a, In a l' -> a <> [] /\ ~ In N a) ->
  join_sep N l = join_sep N l' -> l = l'.
Proof.
  assert (J : forall a b r, join_sep N (a :: b :: r) = a ++ N :: join_sep N (b :: r)) by reflexivity.
  assert (NE : forall a r, a <> [] -> join_sep N (a :: r) <> []).
  { intros a [|b r] H; [exact H|]. rewrite J. destruct a; [contradiction|discriminate]. }
  induction l as [|a l IH]; intros [|b l'] H H' E; auto.
  - exfalso. symmetry in E. revert E. apply NE. apply H'. now left.
  - exfalso. revert E. apply NE. apply H. now left.
  - destruct (H a (or_introl eq_refl)) as [Na Sa], (H' b (or_introl eq_refl)) as [Nb Sb]. destruct l as [|a2 l], l' as [|b2 l'].
    + cbn in E. congruence.
    + exfalso. rewrite J in E. cbn in E. subst a. apply Sa. apply in_or_app. right. now left.
    + exfalso. rewrite J in E. cbn in E. subst b. apply Sb. apply in_or_app. right. now left.
    + rewrite !J in E. apply sep_split in E as [-> E]; auto. f_equal. apply IH; auto; intros c Hc; [apply H|apply H']; now right.
Qed.

(** ** Networks that are sets of sequences *)
Record chains (tn : tnet) (Ls : list (list tid)) : Prop := {
  ch_nodup : NoDup (concat Ls);
  ch_in : forall x, t_in tn x <-> In x (concat Ls);
  ch_ord : forall x y, t_ord tn x y <-> exists L i j, In L Ls /\ nth_error L i = Some x /\ nth_error L j = Some y /\ i < j;
  ch_ne : forall L, In L Ls -> L <> [] }.

Lemma chains_perm tn Ls Ls' : Permutation Ls Ls' -> chains tn Ls -> chains tn Ls'.
Proof.
  intros Pm H. assert (PC : Permutation (concat Ls) (concat Ls')).
  { clear H. induction Pm; cbn; auto; [now apply Permutation_app_head| |eapply Permutation_trans; eauto].
    rewrite !app_assoc. apply Permutation_app_tail. apply Permutation_app_comm. }
  split.
  - eapply Permutation_NoDup; [exact PC|apply H].
  - intros x. rewrite (ch_in _ _ H). split; apply Permutation_in; [|apply Permutation_sym]; auto.
  - intros x y. rewrite (ch_ord _ _ H). split; intros (L & i & j & HL & R); (exists L, i, j; split; [|exact R]); [apply (Permutation_in _ Pm)|apply (Permutation_in _ (Permutation_sym Pm))]; auto.
  - intros L HL. apply (ch_ne _ _ H). eapply Permutation_in; [apply Permutation_sym|]; eauto.
Qed.

Lemma concat_pos {A} (Ls : list (list A)) : NoDup (concat Ls) -> forall i j i' j' L L' x,
  nth_error Ls i = Some L -> nth_error L j = Some x -> nth_error Ls i' = Some L' -> nth_error L' j' = Some x -> i = i' /\ j = j'.
Proof.
  induction Ls as [|M Ls IH]; intros N i j i' j' L L' x E1 E2 E3 E4; [destruct i; discriminate|].
  cbn in N. apply nodup_app_iff in N as (N1 & N2 & N3).
  assert (IC : forall i L j, nth_error Ls i = Some L -> nth_error L j = Some x -> In x (concat Ls)).
  { intros a La b Ga Gb. apply in_concat. exists La. split; eapply nth_error_In; eauto. }
  destruct i as [|i], i' as [|i']; cbn in E1, E3.
  - split; auto. apply (proj1 (NoDup_nth_error M) N1); [apply nth_error_Some|]; congruence.
  - exfalso. injection E1 as ->. eapply N3; [eapply nth_error_In; exact E2|eauto].
  - exfalso. injection E3 as ->. eapply N3; [eapply nth_error_In; exact E4|eauto].
  - destruct (IH N2 i j i' j' L L' x) as [-> ->]; auto.
Qed.

Lemma nth_error_map_some {A B} (f : A -> B) l i y : nth_error (map f l) i = Some y -> exists x, nth_error l i = Some x /\ y = f x.
Proof. rewrite nth_error_map. destruct (nth_error l i) as [x|]; [|discriminate]. intros E. injection E as <-. eauto. Qed.

Lemma chains_iso a b La Lb : chains a La -> chains b Lb -> map (map (t_lab a)) La = map (map (t_lab b)) Lb -> exists f, iso f a b.
Proof.
  intros Ca Cb E.
  assert (PART : forall (la lb : tid -> nat) Xa Xb i L j x, map (map la) Xa = map (map lb) Xb -> nth_error Xa i = Some L -> nth_error L j = Some x ->
     exists L' y, nth_error Xb i = Some L' /\ nth_error L' j = Some y /\ la x = lb y).
  { intros la lb Xa Xb i L j x EX G1 G2. apply (map_nth_error (map la)) in G1. rewrite EX in G1. apply nth_error_map_some in G1 as (L' & G1 & EL).
    apply (map_nth_error la) in G2. rewrite EL in G2. apply nth_error_map_some in G2 as (y & G2 & Ey). eauto. }
  assert (POS : forall tn X x, chains tn X -> t_in tn x -> exists i L j, nth_error X i = Some L /\ nth_error L j = Some x).
  { intros tn X x CX Hx. apply (ch_in _ _ CX), in_concat in Hx as (L & HL & Hx). apply In_nth_error in HL as (i & HL). apply In_nth_error in Hx as (j & Hx). eauto. }
  assert (INN : forall tn X i L j x, chains tn X -> nth_error X i = Some L -> nth_error L j = Some x -> t_in tn x).
  { intros tn X i L j x CX G1 G2. apply (ch_in _ _ CX), in_concat. exists L. split; eapply nth_error_In; eauto. }
  exists (fun x y => exists i j L L', nth_error La i = Some L /\ nth_error L j = Some x /\ nth_error Lb i = Some L' /\ nth_error L' j = Some y). split.
  - intros x y (i & j & L & L' & G1 & G2 & G3 & G4). split; [eapply (INN a La)|eapply (INN b Lb)]; eauto.
  - intros x Hx. destruct (POS a La x Ca Hx) as (i & L & j & G1 & G2). destruct (PART _ _ La Lb i L j x E G1 G2) as (L' & y & G3 & G4 & _). eauto 10.
  - intros y Hy. destruct (POS b Lb y Cb Hy) as (i & L & j & G1 & G2). destruct (PART _ _ Lb La i L j y (eq_sym E) G1 G2) as (L' & x & G3 & G4 & _). eauto 10.
  - intros x y y' (i & j & L & L' & G1 & G2 & G3 & G4) (i' & j' & M & M' & G1' & G2' & G3' & G4').
    destruct (concat_pos La (ch_nodup _ _ Ca) i j i' j' L M x) as [-> ->]; auto. congruence.
  - intros x y y' (i & j & L & L' & G1 & G2 & G3 & G4) (i' & j' & M & M' & G1' & G2' & G3' & G4').
    destruct (concat_pos Lb (ch_nodup _ _ Cb) i j i' j' L' M' y') as [-> ->]; auto. congruence.
  - intros x y (i & j & L & L' & G1 & G2 & G3 & G4). destruct (PART _ _ La Lb i L j x E G1 G2) as (L2 & y2 & G5 & G6 & Q). congruence.
  - intros x y x' y' (i & j & L & L' & G1 & G2 & G3 & G4) (i' & j' & M & M' & G1' & G2' & G3' & G4').
    rewrite (ch_ord _ _ Ca), (ch_ord _ _ Cb). split; intros (K & u & v & HK & Gu & Gv & Luv); apply In_nth_error in HK as (k & HK).
    + destruct (concat_pos La (ch_nodup _ _ Ca) k u i j K L x) as [-> ->]; auto. destruct (concat_pos La (ch_nodup _ _ Ca) i v i' j' K M x') as [-> ->]; auto.
      exists L', j, j'. split; [eapply nth_error_In; eauto|]. split; auto. split; auto. congruence.
    + destruct (concat_pos Lb (ch_nodup _ _ Cb) k u i j K L' y) as [-> ->]; auto. destruct (concat_pos Lb (ch_nodup _ _ Cb) i v i' j' K M' y') as [-> ->]; auto.
      exists L, j, j'. split; [eapply nth_error_In; eauto|]. split; auto. split; auto. congruence.
Qed.

(** Equal joined sequences: isomorphic networks. *)
Lemma seq_iso N a b La Lb : (forall x, t_in a x -> t_lab a x < N) -> (forall x, t_in b x -> t_lab b x < N) -> chains a La -> chains b Lb ->
  join_sep N (lex_sort (map (map (t_lab a)) La)) = join_sep N (lex_sort (map (map (t_lab b)) Lb)) -> exists f, iso f a b.
Proof.
  intros Ba Bb Ca Cb E.
  assert (OK : forall tn X, chains tn X -> (forall x, t_in tn x -> t_lab tn x < N) -> forall l, In l (lex_sort (map (map (t_lab tn)) X)) -> l <> [] /\ ~ In N l).
  { intros tn X CX B l Hl. apply (Permutation_in _ (lex_sort_perm _)) in Hl. apply in_map_iff in Hl as (L & <- & HL). split.
    - intros Q. apply map_eq_nil in Q. eapply (ch_ne _ _ CX); eauto.
    - intros Q. apply in_map_iff in Q as (x & Q & Hx). assert (t_lab tn x < N); [|lia]. apply B. apply (ch_in _ _ CX), in_concat. eauto. }
  apply join_sep_inj in E; eauto.
  assert (Pm : Permutation (map (map (t_lab a)) La) (map (map (t_lab b)) Lb)).
  { rewrite <- (lex_sort_perm (map (map (t_lab a)) La)), E. apply lex_sort_perm. }
  apply Permutation_map_inv in Pm as (Lb' & EE & Pm). apply (chains_iso a b La Lb'); auto. eapply chains_perm; eauto.
Qed.

(** The sequences of a node. *)
Section NodeSeq.
  Variables (P : problem) (h : list pstep) (n : node) (s : state) (tn : tnet) (pi : nat -> tid).
  Hypothesis W : wf_heap P h.
  Hypothesis R : Rep P h n s tn pi.
  Hypothesis O1 : one_succ h.
  Hypothesis NJ : no_join_net tn.

  Lemma to_dfs_path f : forall x l, live h n x -> to_dfs f h x = Some l ->
    exists L, l = map (t_lab tn) (map pi L) /\ L <> [] /\ NoDup L /\ (forall y, In y L <-> rtc h x y) /\
      (forall i j a b, nth_error L i = Some a -> nth_error L j = Some b -> i < j -> tc h a b).
  Proof using W R O1.
    induction f as [|f IH]; intros x l Lx E; cbn [to_dfs] in E; [discriminate|].
    destruct (get h x) as [ps|] eqn:G; [|discriminate]. cbn [obind] in E. pose proof (O1 x ps G) as One.
    assert (Lab : t_lab tn (pi x) = ps_task ps) by (apply (r_lab _ _ _ _ _ _ R); auto).
    destruct (ps_succ ps) as [|z r] eqn:Es.
    - apply some_inj in E. subst l. exists [x]. split; [cbn; congruence|]. split; [discriminate|]. split; [constructor; [intros []|constructor]|]. split.
      + intros y. split; [intros [<-|[]]; apply rt_refl|]. intros Q. apply rtc_cases in Q as [->|Q]; [now left|]. apply tc_first in Q as (z & (ps' & G' & Hz) & _).
        rewrite G in G'. injection G' as <-. rewrite Es in Hz. destruct Hz.
      + intros [|i] [|j] a b Ga Gb Lij; try lia; destruct j; discriminate.
    - destruct r; [|cbn in One; lia]. destruct (to_dfs f h z) as [l'|] eqn:E'; [|discriminate]. cbn [obind] in E. apply some_inj in E. subst l.
      assert (Exz : edge h x z) by (exists ps; rewrite Es; split; [auto|now left]).
      destruct (IH z l') as (L & -> & NL & ND & I & OL); [eapply live_step; [exact Lx|now apply rt_step]|auto|].
      exists (x :: L). split; [cbn; congruence|]. split; [discriminate|]. split; [|split].
      + constructor; auto. intros Hx. apply I in Hx. eapply live_acyclic; eauto. eapply tc_rtc_tc; [apply t_step; exact Exz|exact Hx].
      + intros y. split.
        * intros [<-|Hy]; [apply rt_refl|]. apply I in Hy. eapply rt_trans; [apply rt_step; exact Exz|exact Hy].
        * intros Q. apply rtc_cases in Q as [->|Q]; [now left|]. right. apply I. apply tc_first in Q as (z' & (ps' & G' & Hz) & Q).
          rewrite G in G'. injection G' as <-. rewrite Es in Hz. destruct Hz as [<-|[]]. exact Q.
      + intros [|i] [|j] a b Ga Gb Lij; try lia.
        * cbn in Ga, Gb. injection Ga as <-. apply nth_error_In, I in Gb. eapply tc_rtc_tc; [apply t_step; exact Exz|exact Gb].
        * cbn in Ga, Gb. eapply OL; eauto. lia.
  Qed.

  Lemma par_sequences_ok N : exists Ls, chains tn Ls /\ par_sequences N h n = Some (join_sep N (lex_sort (map (map (t_lab tn)) Ls))).
  Proof.
    unfold par_sequences. assert (HD : forall x, In x (n_abs n ++ n_prim n) <-> In x (heads n)) by reflexivity.
    assert (LV : forall x, In x (heads n) -> live h n x) by (intros x Hx; exists x; split; [auto|apply rt_refl]).
    assert (GEN : forall X, (forall x, In x X -> In x (heads n)) -> exists Xs, omap (to_dfs (length h) h) X = Some (map (map (t_lab tn)) (map (map pi) Xs)) /\
       Forall2 (fun x L => L <> [] /\ NoDup L /\ (forall y, In y L <-> rtc h x y) /\ (forall i j a b, nth_error L i = Some a -> nth_error L j = Some b -> i < j -> tc h a b)) X Xs).
    { induction X as [|x X IH]; intros HX; [exists []; split; [reflexivity|constructor]|].
      destruct IH as (Xs & E & F); [intros; apply HX; now right|]. assert (Lx : live h n x) by (apply LV, HX; now left).
      destruct (to_dfs_defined P h n s tn pi W R x Lx) as (l & El). destruct (to_dfs_path _ x l Lx El) as (L & -> & Q).
      exists (L :: Xs). cbn [omap]. rewrite El. cbn [obind]. rewrite E. cbn [obind]. split; [reflexivity|]. constructor; auto. }
    destruct (GEN (n_abs n ++ n_prim n)) as (Xs & E & F); [auto|]. exists (map (map pi) Xs). rewrite E. cbn [obind]. split; [|reflexivity].
    assert (ND : NoDup (n_abs n ++ n_prim n)) by apply (r_nodup _ _ _ _ _ _ R).
    assert (INX : forall x, In x (n_abs n ++ n_prim n) -> exists L, In L Xs /\ (forall y, In y L <-> rtc h x y) /\ (forall i j a b, nth_error L i = Some a -> nth_error L j = Some b -> i < j -> tc h a b)).
    { clear - F. induction F as [|x L X Xs HL F IH]; intros y Hy; [destruct Hy|]. destruct Hy as [<-|Hy]; [exists L; split; [now left|tauto]|].
      destruct (IH y Hy) as (M & HM & Q). exists M. split; [now right|exact Q]. }
    assert (OUT : forall L, In L Xs -> exists x, In x (n_abs n ++ n_prim n) /\ L <> [] /\ NoDup L /\ (forall y, In y L <-> rtc h x y) /\ (forall i j a b, nth_error L i = Some a -> nth_error L j = Some b -> i < j -> tc h a b)).
    { clear - F. induction F as [|x L X Xs HL F IH]; intros M HM; [destruct HM|]. destruct HM as [<-|HM]; [exists x; split; [now left|tauto]|].
      destruct (IH M HM) as (y & Hy & Q). exists y. split; [now right|exact Q]. }
    assert (LIVE : forall L y, In L Xs -> In y L -> live h n y).
    { intros L y HL Hy. destruct (OUT L HL) as (x & Hx & _ & _ & I & _). exists x. split; [auto|]. now apply I. }
    assert (DIS : forall x x' y, In x (heads n) -> In x' (heads n) -> rtc h x y -> rtc h x' y -> x = x').
    { intros x x' y Hx Hx' Q Q'. destruct (Nat.eq_dec x x') as [|Nx]; auto. exfalso.
      assert (Ly : live h n y) by (exists x; auto).
      assert (M : forall u v, In u (heads n) -> In v (heads n) -> ~ tc h u v).
      { intros u v Hu Hv T. apply (r_min _ _ _ _ _ _ R v Hv) with (y := pi u). apply (r_ord _ _ _ _ _ _ R); auto. }
      apply rtc_cases in Q as [->|Q]; apply rtc_cases in Q' as [->|Q']; try (eapply M; [| |eassumption]; eassumption); [congruence|].
      destruct (NJ (pi y) (pi x) (pi x')) as [Q2|[Q2|Q2]]; try (apply (r_ord _ _ _ _ _ _ R); auto).
      - apply Nx. apply (r_inj _ _ _ _ _ _ R); auto.
      - apply (r_ord _ _ _ _ _ _ R) in Q2; auto. eapply M; [| |exact Q2]; auto.
      - apply (r_ord _ _ _ _ _ _ R) in Q2; auto. eapply M; [| |exact Q2]; auto. }
    assert (NC : NoDup (concat Xs)).
    { assert (HS : forall x, In x (n_abs n ++ n_prim n) -> In x (heads n)) by auto. clear - F ND DIS HS.
      induction F as [|x L X Xs HL F IH]; cbn; [constructor|]. inversion ND as [|? ? Nx ND']; subst. apply nodup_app_iff. split; [tauto|]. split.
      - apply IH; auto. intros y Hy. apply HS. now right.
      - intros y Hy Hy'. apply in_concat in Hy' as (M & HM & Hy'). 
        assert (OUT : exists x', In x' X /\ rtc h x' y).
        { clear - F HM Hy'. induction F as [|a K X Xs HK F IH]; [destruct HM|]. destruct HM as [->|HM].
          - exists a. split; [now left|]. now apply HK.
          - destruct (IH HM) as (b & Hb & Q). exists b. split; [now right|auto]. }
        destruct OUT as (x' & Hx' & Q'). apply Nx. rewrite (DIS x x' y); auto; [apply HS; now left|apply HS; now right|]. now apply HL. }
    assert (CM : forall Y, concat (map (map pi) Y) = map pi (concat Y)) by (intros Y; now rewrite concat_map).
    split.
    - rewrite CM. apply NoDup_map_in; auto. intros a b Ha Hb. apply in_concat in Ha as (La & HLa & Ha). apply in_concat in Hb as (Lb & HLb & Hb).
      apply (r_inj _ _ _ _ _ _ R); eauto.
    - intros x. rewrite CM, in_map_iff, (r_in _ _ _ _ _ _ R). split.
      + intros (i & Li & Ei). exists i. split; auto. destruct Li as (r & Hr & Q). destruct (INX r) as (L & HL & I & _); [auto|]. apply in_concat. exists L. split; auto. now apply I.
      + intros (i & Ei & Hi). exists i. split; auto. apply in_concat in Hi as (L & HL & Hi). eauto.
    - intros x y. split.
      + intros Q. destruct (wt_dom _ (r_wf _ _ _ _ _ _ R) _ _ Q) as [Hx Hy]. apply (r_in _ _ _ _ _ _ R) in Hx as (a & La & <-). apply (r_in _ _ _ _ _ _ R) in Hy as (b & Lb & <-).
        apply (r_ord _ _ _ _ _ _ R) in Q; auto. assert (La' := La). destruct La' as (r & Hr & Ra). destruct (INX r) as (L & HL & I & OL); [auto|].
        assert (Ha : In a L) by now apply I. assert (Hb : In b L) by (apply I; eapply rt_trans; [exact Ra|now apply tc_rtc]).
        apply In_nth_error in Ha as (i & Gi). apply In_nth_error in Hb as (j & Gj).
        exists (map pi L), i, j. split; [now apply in_map|]. split; [now apply map_nth_error|]. split; [now apply map_nth_error|].
        destruct (Nat.lt_trichotomy i j) as [|[->|Q']]; auto; exfalso.
        * rewrite Gi in Gj. injection Gj as ->. eapply live_acyclic; eauto.
        * eapply (live_acyclic P h n s tn pi a); eauto. eapply t_trans; [exact Q|]. eapply OL; eauto.
      + intros (L & i & j & HL & Gi & Gj & Lij). apply in_map_iff in HL as (M & <- & HM).
        apply nth_error_map_some in Gi as (a & Gi & ->). apply nth_error_map_some in Gj as (b & Gj & ->).
        destruct (OUT M HM) as (r & Hr & _ & _ & I & OL). apply (r_ord _ _ _ _ _ _ R); [eapply LIVE; eauto; eapply nth_error_In; eauto|eapply LIVE; eauto; eapply nth_error_In; eauto|].
        eapply OL; eauto.
    - intros L HL. apply in_map_iff in HL as (M & <- & HM). destruct (OUT M HM) as (r & _ & NM & _). intros Q. apply map_eq_nil in Q. auto.
  Qed.
End NodeSeq.

(** ** Total order mode *)
Definition sig_total (tn : tnet) (sq : list nat) : Prop := wf_tn tn /\ total_net tn /\ exists L, linearisation tn L /\ sq = map (t_lab tn) L.
Definition reduced_methods (P : problem) : Prop := forall m, In m (p_methods P) -> forall j, length (filter (fun o => Nat.eqb (fst o) j) (m_ord m)) <= 1.

Lemma sig_total_iso a b sq : sig_total a sq -> sig_total b sq -> exists f, iso f a b.
Proof. intros (Wa & Ta & La & Ha & ->) (Wb & Tb & Lb & Hb & E). apply (total_iso a b La Lb); auto. Qed.

Lemma total_lin_unique tn L L' : total_net tn -> linearisation tn L -> linearisation tn L' -> L = L'.
Proof.
  intros T (N & I & O) (N' & I' & O'). revert L' N' I' O'.
  assert (G : forall (A : tid -> Prop) L L', NoDup L -> NoDup L' -> (forall x, In x L <-> A x) -> (forall x, In x L' <-> A x) ->
    (forall x y, A x -> A y -> x = y \/ t_ord tn x y \/ t_ord tn y x) ->
    (forall i j x y, nth_error L i = Some x -> nth_error L j = Some y -> t_ord tn x y -> i < j) ->
    (forall i j x y, nth_error L' i = Some x -> nth_error L' j = Some y -> t_ord tn x y -> i < j) -> L = L').
  { clear. intros A L. revert A. induction L as [|x L IH]; intros A [|y L'] N N' I I' T O O'; auto.
    - exfalso. apply (I y). apply I'. now left.
    - exfalso. apply (I' x). apply I. now left.
    - assert (E : x = y).
      { assert (Hx : A x) by (apply I; now left). assert (Hy : A y) by (apply I'; now left).
        destruct (T x y Hx Hy) as [|[Q|Q]]; auto; exfalso.
        - assert (Hx' := Hx). apply I' in Hx'. apply In_nth_error in Hx' as (i & Gi). pose proof (O' i 0 x y Gi eq_refl Q). lia.
        - assert (Hy' := Hy). apply I in Hy'. apply In_nth_error in Hy' as (i & Gi). pose proof (O i 0 y x Gi eq_refl Q). lia. }
      subst y. f_equal. inversion N; inversion N'; subst. apply (IH (fun z => A z /\ z <> x)); auto.
      + intros z. split; [intros Hz; split; [apply I; now right|intros ->; contradiction]|]. intros [Hz Nz]. apply I in Hz as [->|Hz]; [contradiction|auto].
      + intros z. split; [intros Hz; split; [apply I'; now right|intros ->; contradiction]|]. intros [Hz Nz]. apply I' in Hz as [->|Hz]; [contradiction|auto].
      + intros u v [Hu _] [Hv _]. auto.
      + intros i j u v Gi Gj Q. pose proof (O (S i) (S j) u v Gi Gj Q). lia.
      + intros i j u v Gi Gj Q. pose proof (O' (S i) (S j) u v Gi Gj Q). lia. }
  intros L' N' I' O'. apply (G (t_in tn)); auto.
Qed.

Lemma sig_total_same a b sa sb f : iso f a b -> sig_total a sa -> sig_total b sb -> sa = sb.
Proof.
  intros Is (Wa & Ta & La & Ha & ->) (Wb & Tb & Lb & Hb & ->).
  destruct (iso_list f a b La Is) as (L' & F); [intros x Hx; now apply Ha|].
  rewrite (iso_map f a b La L' Is F). f_equal. symmetry. apply (total_lin_unique b); auto.
  destruct Ha as (N & I & O). split; [|split].
  - clear - F N Is. induction F as [|x y L L' Fxy F IH]; [constructor|]. inversion N; subst. constructor; auto.
    intros Hy. assert (exists z, In z L /\ f z y) as (z & Hz & Fz); [|apply H1; rewrite (iso_inj _ _ _ Is x z y); auto].
    clear - F Hy. induction F as [|u v L L' Fuv F IH]; [destruct Hy|]. destruct Hy as [->|Hy]; [exists u; split; [now left|auto]|].
    destruct (IH Hy) as (z & Hz & Q). exists z. split; [now right|auto].
  - intros y. split.
    + intros Hy. assert (exists z, In z La /\ f z y) as (z & Hz & Fz).
      { clear - F Hy. induction F as [|u v L L' Fuv F IH]; [destruct Hy|]. destruct Hy as [->|Hy]; [exists u; split; [now left|auto]|].
        destruct (IH Hy) as (z & Hz & Q). exists z. split; [now right|auto]. }
      apply (iso_dom _ _ _ Is _ _ Fz).
    + intros Hy. destruct (iso_surj _ _ _ Is y Hy) as (x & Fx). assert (Hx : In x La) by (apply I; apply (iso_dom _ _ _ Is _ _ Fx)).
      clear - F Hx Fx Is. induction F as [|u v L L' Fuv F IH]; [destruct Hx|]. destruct Hx as [->|Hx]; [left; eapply (iso_fun _ _ _ Is); eauto|right; auto].
  - assert (NTH : forall i y, nth_error L' i = Some y -> exists x, nth_error La i = Some x /\ f x y).
    { clear - F. induction F as [|u v L L' Fuv F IH]; intros [|i] y G; try discriminate; cbn in *; [injection G as <-; eauto|auto]. }
    intros i j x y Gi Gj Q. destruct (NTH _ _ Gi) as (x' & Gi' & Fx). destruct (NTH _ _ Gj) as (y' & Gj' & Fy).
    apply (O i j x' y' Gi' Gj'). apply (iso_ord _ _ _ Is _ _ _ _ Fx Fy); auto.
Qed.

Section TotalMode.
  Variables (P : problem) (C : config) (c : vconf) (par : vpar).
  Hypothesis WP : wf_problem P.
  Hypothesis HC : forall l, Permutation l (c_perm C l).
  Hypothesis AL : forall k, length (vp_al par k) = k.
  Hypothesis TM : total_methods P.
  Hypothesis PS : vc_PS c = true -> reduced_methods P.
  Hypothesis TP : vc_topo c = true.

  Lemma hist_total w l n s tn pi : history P C w l -> In n l -> Rep P (w_heap w) n s tn pi -> wf_heap P (w_heap w) /\ total_net tn.
  Proof using WP HC TM.
    intros H Hn R. destruct (history_net P C WP HC total_net (fun _ => True)) with (w := w) (l := l) (n := n) as (W & _ & s' & tn' & pi' & R' & T); auto.
    - intros x y -> ->. now left.
    - intros. now apply total_minus.
    - intros t x m Wt Tt M D. eapply total_dec; eauto. apply TM. apply (d_method _ _ _ _ _ D).
    - split; auto. destruct (Rep_iso P _ _ _ _ _ _ _ _ W R' R) as (_ & f & Is). eapply iso_total; eauto.
  Qed.

  Lemma hist_one_succ w l n : reduced_methods P -> history P C w l -> In n l -> one_succ (w_heap w).
  Proof using WP HC.
    intros RM H Hn. destruct (history_net P C WP HC (fun _ => True) one_succ) with (w := w) (l := l) (n := n) as (_ & O & _); auto.
    - intros [|[|i]] ps G; try discriminate. injection G as <-. cbn. lia.
    - intros h x ps m inst O G Hm i q Gi. destruct (Nat.lt_ge_cases i (length h)) as [L|L]; [rewrite get_app_l in Gi by auto; eauto|].
      unfold get in Gi. rewrite nth_error_app2 in Gi by auto. set (j := i - length h) in *.
      assert (Lj : j < length (method_steps m (length h) inst (ps_succ ps))) by (apply nth_error_Some; congruence). rewrite method_steps_length in Lj.
      destruct (nth_error (m_subs m) j) as [t|] eqn:Gt; [|apply nth_error_None in Gt; lia].
      apply (method_steps_get m (length h) inst (ps_succ ps)) in Gt. unfold get in Gt. rewrite Gt in Gi. injection Gi as <-. cbn.
      destruct (is_last m j); [eauto|]. rewrite map_length. now apply RM.
  Qed.

  Lemma total_sequence w l n s tn pi : history P C w l -> In n l -> Rep P (w_heap w) n s tn pi ->
    exists sq, vis_sequence c par (w_heap w) n = Some sq /\ sig_total tn sq.
  Proof.
    intros H Hn R. destruct (hist_total w l n s tn pi H Hn R) as [W T].
    assert (LV : forall x, In x (heads n) -> live (w_heap w) n x) by (intros x Hx; exists x; split; [auto|apply rt_refl]).
    assert (DF : forall X, (forall x, In x X -> In x (heads n)) -> exists r, match X with [] => Some [] | x :: _ => to_dfs (length (w_heap w)) (w_heap w) x end = Some r).
    { intros [|x X] HX; [eauto|]. apply (to_dfs_defined P _ n s tn pi W R). apply LV, HX. now left. }
    destruct (DF (n_prim n)) as (r1 & E1); [intros; apply in_or_app; auto|]. destruct (DF (n_abs n)) as (r2 & E2); [intros; apply in_or_app; auto|].
    unfold vis_sequence. rewrite TP. cbn [orb].
    assert (EE : (if vc_TO c then _ <- match n_prim n with [] => Some [] | x :: _ => to_dfs (length (w_heap w)) (w_heap w) x end ;;
       match n_abs n with [] => Some [] | x :: _ => to_dfs (length (w_heap w)) (w_heap w) x end else Some []) = Some (if vc_TO c then r2 else [])).
    { rewrite E1, E2. cbn [obind]. now destruct (vc_TO c). }
    rewrite EE. cbn [obind]. destruct (vc_PS c) eqn:EP.
    - destruct (par_sequences_ok P (w_heap w) n s tn pi W R (hist_one_succ w l n (PS eq_refl) H Hn)) with (N := vc_tasks c) as (Ls & CH & E).
      { intros x y z Oy Oz. apply T; [apply (wt_dom _ (r_wf _ _ _ _ _ _ R) _ _ Oy)|apply (wt_dom _ (r_wf _ _ _ _ _ _ R) _ _ Oz)]. }
      rewrite E. eexists. split; [reflexivity|]. split; [apply R|]. split; auto.
      assert (ONE : Ls = [] \/ exists L, Ls = [L]).
      { destruct Ls as [|L [|L' Ls]]; [auto|eauto|]. exfalso.
        destruct L as [|x L]; [apply (ch_ne _ _ CH []); [now left|auto]|]. destruct L' as [|y L']; [apply (ch_ne _ _ CH []); [right; now left|auto]|].
        assert (POS : forall K i j z, In K ((x :: L) :: (y :: L') :: Ls) -> nth_error ((x :: L) :: (y :: L') :: Ls) i = Some K -> nth_error K j = Some z -> (z = x -> i = 0) /\ (z = y -> i = 1)).
        { intros K i j z HK Gi Gj. split; intros ->.
          - destruct (concat_pos _ (ch_nodup _ _ CH) i j 0 0 K (x :: L) x); auto.
          - destruct (concat_pos _ (ch_nodup _ _ CH) i j 1 0 K (y :: L') y); auto. }
        assert (NO : forall u v, (u = x /\ v = y) \/ (u = y /\ v = x) -> ~ t_ord tn u v).
        { intros u v Q O. apply (ch_ord _ _ CH) in O as (K & i & j & HK & Gi & Gj & _). apply In_nth_error in HK as (k & Gk).
          pose proof (POS K k i u (nth_error_In _ _ Gk) Gk Gi) as [Q1 Q2]. pose proof (POS K k j v (nth_error_In _ _ Gk) Gk Gj) as [Q3 Q4].
          destruct Q as [[-> ->]|[-> ->]]; [specialize (Q1 eq_refl); specialize (Q4 eq_refl)|specialize (Q2 eq_refl); specialize (Q3 eq_refl)]; lia. }
        destruct (T x y) as [->|[Q|Q]].
        - apply (ch_in _ _ CH). now left.
        - apply (ch_in _ _ CH), in_concat. exists (y :: L'). split; [right; now left|now left].
        - pose proof (POS (y :: L') 1 0 y (or_intror (or_introl eq_refl)) eq_refl eq_refl) as [Q1 _]. specialize (Q1 eq_refl). discriminate.
        - apply (NO x y); auto.
        - apply (NO y x); auto. }
      exists (concat Ls). split.
      + split; [apply CH|]. split; [intros x; symmetry; apply CH|]. intros i j x y Gi Gj O. apply (ch_ord _ _ CH) in O as (K & i' & j' & HK & Gi' & Gj' & Lij).
        destruct ONE as [->|(L & ->)]; [destruct HK|]. destruct HK as [->|[]]. cbn in Gi, Gj. rewrite app_nil_r in Gi, Gj.
        pose proof (ch_nodup _ _ CH) as N. cbn in N. rewrite app_nil_r in N.
        assert (i = i') by (apply (proj1 (NoDup_nth_error K) N); [apply nth_error_Some|]; congruence).
        assert (j = j') by (apply (proj1 (NoDup_nth_error K) N); [apply nth_error_Some|]; congruence). lia.
      + destruct ONE as [->|(L & ->)]; [reflexivity|]. cbn. now rewrite app_nil_r.
    - destruct (topSort_linear P (w_heap w) n s tn pi W R (vp_al par) AL) as (L & E & HL). rewrite E. eexists. split; [reflexivity|]. split; [apply R|]. split; auto. eauto.
  Qed.
End TotalMode.

(** ** The order of the sequences *)
Lemma lex_le_refl a : lex_le a a = true.
Proof. induction a as [|x a IH]; cbn [lex_le]; auto. now rewrite Nat.ltb_irrefl. Qed.
Lemma lex_le_total a b : lex_le a b = true \/ lex_le b a = true.
Proof.
  revert b. induction a as [|x a IH]; intros [|y b]; cbn [lex_le]; auto. destruct (Nat.ltb_spec x y), (Nat.ltb_spec y x); auto.
Qed.
Lemma lex_le_anti a b : lex_le a b = true -> lex_le b a = true -> a = b.
Proof.
  revert b. induction a as [|x a IH]; intros [|y b]; cbn [lex_le]; auto; try discriminate.
  destruct (Nat.ltb_spec x y), (Nat.ltb_spec y x); try discriminate; try lia. intros H1 H2. f_equal; [lia|auto].
Qed.
Lemma lex_le_trans a b c : lex_le a b = true -> lex_le b c = true -> lex_le a c = true.
Proof.
  revert b c. induction a as [|x a IH]; intros [|y b] [|z c]; cbn [lex_le]; auto; try discriminate.
  destruct (Nat.ltb_spec x y), (Nat.ltb_spec y x), (Nat.ltb_spec y z), (Nat.ltb_spec z y), (Nat.ltb_spec x z), (Nat.ltb_spec z x); try discriminate; try lia; auto.
  apply IH.
Qed.
Lemma lex_insert_comm a b l : lex_insert a (lex_insert b l) = lex_insert b (lex_insert a l).
Proof.
  assert (AB : forall l, lex_le a b = true -> lex_le b a = true -> lex_insert a (lex_insert b l) = lex_insert b (lex_insert a l)).
  { intros k H1 H2. now rewrite (lex_le_anti a b H1 H2). }
  induction l as [|c l IH]; cbn.
  - destruct (lex_le a b) eqn:E1, (lex_le b a) eqn:E2; auto; [now rewrite (lex_le_anti a b E1 E2)|]. destruct (lex_le_total a b); congruence.
  - destruct (lex_le b c) eqn:Ebc, (lex_le a c) eqn:Eac; cbn.
    + destruct (lex_le a b) eqn:E1, (lex_le b a) eqn:E2; rewrite ?Ebc, ?Eac; auto; [now rewrite (lex_le_anti a b E1 E2)|]. destruct (lex_le_total a b); congruence.
    + destruct (lex_le a b) eqn:E1.
      * exfalso. rewrite (lex_le_trans _ _ _ E1 Ebc) in Eac. discriminate.
      * rewrite Eac, Ebc. reflexivity.
    + destruct (lex_le b a) eqn:E1.
      * exfalso. rewrite (lex_le_trans _ _ _ E1 Eac) in Ebc. discriminate.
      * rewrite Eac, Ebc. reflexivity.
    + rewrite Eac, Ebc. now rewrite IH.
Qed.
Lemma lex_sort_canon l l' : Permutation l l' -> lex_sort l = lex_sort l'.
Proof. induction 1; cbn; auto; [now f_equal|apply lex_insert_comm|congruence]. Qed.

(** ** Isomorphic networks have the same sequences *)
Lemma linear_unique (ord : tid -> tid -> Prop) L : forall L', NoDup L -> NoDup L' -> (forall x, In x L <-> In x L') ->
  (forall i j x y, nth_error L i = Some x -> nth_error L j = Some y -> i < j -> ord x y) ->
  (forall i j x y, nth_error L' i = Some x -> nth_error L' j = Some y -> i < j -> ord x y) ->
  (forall x y, ord x y -> ~ ord y x) -> L = L'.
Proof.
  induction L as [|x L IH]; intros [|y L'] N N' I O O' A; auto.
  - exfalso. apply (I y). now left.
  - exfalso. apply (I x). now left.
  - assert (E : x = y).
    { assert (Hx : In x (y :: L')) by (apply I; now left). assert (Hy : In y (x :: L)) by (apply I; now left).
      destruct Hx as [|Hx]; [auto|]. destruct Hy as [|Hy]; [auto|]. exfalso. apply In_nth_error in Hx as (i & Gi). apply In_nth_error in Hy as (j & Gj).
      eapply A; [apply (O' 0 (S i) y x)|apply (O 0 (S j) x y)]; auto; lia. }
    subst y. f_equal. inversion N; inversion N'; subst. apply IH; auto.
    + intros z. split; intros Hz.
      * assert (Q : In z (x :: L')) by (apply I; now right). destruct Q as [->|]; [contradiction|auto].
      * assert (Q : In z (x :: L)) by (apply I; now right). destruct Q as [->|]; [contradiction|auto].
    + intros i j u v Gi Gj Q. apply (O (S i) (S j)); auto. lia.
    + intros i j u v Gi Gj Q. apply (O' (S i) (S j)); auto. lia.
Qed.

Lemma chains_sub tn X Y : wf_tn tn -> chains tn X -> chains tn Y -> incl X Y.
Proof.
  intros W CX CY L HL. destruct L as [|x L]; [exfalso; eapply (ch_ne _ _ CX); eauto|].
  assert (Hx : In x (concat Y)). { apply (ch_in _ _ CY), (ch_in _ _ CX), in_concat. exists (x :: L). split; [auto|now left]. }
  apply in_concat in Hx as (K & HK & Hx).
  assert (NDX : forall tn Z M, chains tn Z -> In M Z -> NoDup M).
  { clear. intros tn Z M CZ HM. pose proof (ch_nodup _ _ CZ) as N. clear CZ. induction Z as [|A Z IH]; [destruct HM|]. cbn in N. apply nodup_app_iff in N as (N1 & N2 & _). destruct HM as [->|]; auto. }
  assert (MEM : forall Z M x y, chains tn Z -> In M Z -> In x M -> (In y M <-> y = x \/ t_ord tn x y \/ t_ord tn y x)).
  { intros Z M u v CZ HM Hu. apply In_nth_error in Hu as (i & Gi). apply In_nth_error in HM as (k & Gk). split.
    - intros Hv. apply In_nth_error in Hv as (j & Gj). destruct (Nat.lt_trichotomy i j) as [Q|[->|Q]].
      + right. left. apply (ch_ord _ _ CZ). exists M, i, j. split; [eapply nth_error_In; eauto|auto].
      + left. congruence.
      + right. right. apply (ch_ord _ _ CZ). exists M, j, i. split; [eapply nth_error_In; eauto|auto].
    - intros [->|[Q|Q]]; [eapply nth_error_In; eauto| |]; apply (ch_ord _ _ CZ) in Q as (M' & i' & j' & HM' & Gi' & Gj' & _); apply In_nth_error in HM' as (k' & Gk').
      + destruct (concat_pos Z (ch_nodup _ _ CZ) k i k' i' M M' u) as [-> ->]; auto. rewrite Gk in Gk'. injection Gk' as <-. eapply nth_error_In; eauto.
      + destruct (concat_pos Z (ch_nodup _ _ CZ) k i k' j' M M' u) as [-> ->]; auto. rewrite Gk in Gk'. injection Gk' as <-. eapply nth_error_In; eauto. }
  replace (x :: L) with K; auto. apply (linear_unique (t_ord tn)); [apply (NDX tn Y); auto|apply (NDX tn X); auto| | | |].
  - intros y. rewrite (MEM Y K x y), (MEM X (x :: L) x y); auto; [reflexivity|now left].
  - intros i j a b Gi Gj Q. apply (ch_ord _ _ CY). eauto 7.
  - intros i j a b Gi Gj Q. apply (ch_ord _ _ CX). eauto 7.
  - intros a b Q Q'. eapply (wt_irr _ W a), (wt_trans _ W); eauto.
Qed.

Lemma chains_nodup tn X : chains tn X -> NoDup X.
Proof.
  intros H. pose proof (ch_nodup _ _ H) as N. pose proof (ch_ne _ _ H) as NE. clear H. induction X as [|L X IH]; constructor.
  - intros HL. cbn in N. apply nodup_app_iff in N as (_ & _ & N). destruct L as [|x L]; [apply (NE []); [now left|auto]|]. apply (N x); [now left|]. apply in_concat. exists (x :: L). split; [auto|now left].
  - cbn in N. apply nodup_app_iff in N as (_ & N & _). apply IH; auto. intros; apply NE. now right.
Qed.

Lemma chains_unique tn X Y : wf_tn tn -> chains tn X -> chains tn Y -> Permutation X Y.
Proof.
  intros W CX CY. apply NoDup_Permutation; try (eapply chains_nodup; eauto). intros L. split; intros HL; [apply (chains_sub tn X Y)|apply (chains_sub tn Y X)]; auto.
Qed.

Lemma forall2_in_r {A B} (R : A -> B -> Prop) X Y y : Forall2 R X Y -> In y Y -> exists x, In x X /\ R x y.
Proof.
  induction 1 as [|u v L L' Fuv F IH]; intros Hy; [destruct Hy|]. destruct Hy as [->|Hy]; [exists u; split; [now left|auto]|].
  destruct (IH Hy) as (z & Hz & Q). exists z. split; [now right|auto].
Qed.
Lemma forall2_in_l {A B} (R : A -> B -> Prop) X Y x : Forall2 R X Y -> In x X -> exists y, In y Y /\ R x y.
Proof.
  induction 1 as [|u v L L' Fuv F IH]; intros Hy; [destruct Hy|]. destruct Hy as [->|Hy]; [exists v; split; [now left|auto]|].
  destruct (IH Hy) as (z & Hz & Q). exists z. split; [now right|auto].
Qed.
Lemma forall2_nth_l {A B} (R : A -> B -> Prop) X Y i x : Forall2 R X Y -> nth_error X i = Some x -> exists y, nth_error Y i = Some y /\ R x y.
Proof. intros F. revert i. induction F as [|u v L L' Fuv F IH]; intros [|i] G; try discriminate; cbn in *; [injection G as <-; eauto|auto]. Qed.
Lemma forall2_nth_r {A B} (R : A -> B -> Prop) X Y i y : Forall2 R X Y -> nth_error Y i = Some y -> exists x, nth_error X i = Some x /\ R x y.
Proof. intros F. revert i. induction F as [|u v L L' Fuv F IH]; intros [|i] G; try discriminate; cbn in *; [injection G as <-; eauto|auto]. Qed.

Lemma chains_same a b f La Lb : wf_tn b -> iso f a b -> chains a La -> chains b Lb -> Permutation (map (map (t_lab a)) La) (map (map (t_lab b)) Lb).
Proof.
  intros Wb Is Ca Cb.
  assert (EX : exists X, Forall2 (Forall2 f) La X).
  { assert (IN : forall L, In L La -> forall x, In x L -> t_in a x) by (intros L HL x Hx; apply (ch_in _ _ Ca), in_concat; eauto).
    clear Ca. induction La as [|L La IH]; [exists []; constructor|]. destruct IH as (X & F); [intros; eapply IN; eauto; now right|].
    destruct (iso_list f a b L Is) as (L' & F'); [intros x Hx; eapply IN; eauto; now left|]. exists (L' :: X). now constructor. }
  destruct EX as (X & F).
  assert (EL : map (map (t_lab a)) La = map (map (t_lab b)) X).
  { clear - F Is. induction F as [|L L' La X FL F IH]; cbn; auto. f_equal; auto. eapply iso_map; eauto. }
  rewrite EL. apply Permutation_map. apply (chains_unique b); auto.
  assert (FC : Forall2 f (concat La) (concat X)). { clear - F. induction F; cbn; auto using Forall2_app. }
  split.
  - pose proof (ch_nodup _ _ Ca) as N. clear - FC N Is. induction FC as [|x y L L' Fxy FC IH]; [constructor|]. inversion N; subst. constructor; auto.
    intros Hy. destruct (forall2_in_r _ _ _ _ FC Hy) as (z & Hz & Fz). apply H1. rewrite (iso_inj _ _ _ Is x z y); auto.
  - intros y. split.
    + intros Hy. destruct (iso_surj _ _ _ Is y Hy) as (x & Fx). assert (Hx : In x (concat La)) by (apply (ch_in _ _ Ca); apply (iso_dom _ _ _ Is _ _ Fx)).
      destruct (forall2_in_l _ _ _ _ FC Hx) as (y' & Hy' & Fy'). now rewrite (iso_fun _ _ _ Is x y y').
    + intros Hy. destruct (forall2_in_r _ _ _ _ FC Hy) as (z & Hz & Fz). apply (iso_dom _ _ _ Is _ _ Fz).
  - intros x y. split.
    + intros Q. destruct (wt_dom _ Wb _ _ Q) as [Hx Hy]. destruct (iso_surj _ _ _ Is x Hx) as (x' & Fx). destruct (iso_surj _ _ _ Is y Hy) as (y' & Fy).
      apply (iso_ord _ _ _ Is _ _ _ _ Fx Fy) in Q. apply (ch_ord _ _ Ca) in Q as (L & i & j & HL & Gi & Gj & Lij).
      destruct (forall2_in_l _ _ _ _ F HL) as (L' & HL' & FL). destruct (forall2_nth_l _ _ _ _ _ FL Gi) as (x2 & Gx & Fx2). destruct (forall2_nth_l _ _ _ _ _ FL Gj) as (y2 & Gy & Fy2).
      rewrite (iso_fun _ _ _ Is x' x x2), (iso_fun _ _ _ Is y' y y2) by auto. eauto 8.
    + intros (L' & i & j & HL' & Gi & Gj & Lij). destruct (forall2_in_r _ _ _ _ F HL') as (L & HL & FL).
      destruct (forall2_nth_r _ _ _ _ _ FL Gi) as (x' & Gx & Fx). destruct (forall2_nth_r _ _ _ _ _ FL Gj) as (y' & Gy & Fy).
      apply (iso_ord _ _ _ Is _ _ _ _ Fx Fy). apply (ch_ord _ _ Ca). eauto 8.
  - intros L' HL' ->. destruct (forall2_in_r _ _ _ _ F HL') as (L & HL & FL). inversion FL; subst. eapply (ch_ne _ _ Ca); eauto.
Qed.

Definition sig_seq (N : nat) (tn : tnet) (sq : list nat) : Prop := wf_tn tn /\ (forall x, t_in tn x -> t_lab tn x < N) /\
  exists Ls, chains tn Ls /\ sq = join_sep N (lex_sort (map (map (t_lab tn)) Ls)).

Lemma sig_seq_iso N a b sq : sig_seq N a sq -> sig_seq N b sq -> exists f, iso f a b.
Proof. intros (Wa & Ta & La & Ha & ->) (Wb & Tb & Lb & Hb & E). apply (seq_iso N a b La Lb); auto. Qed.
Lemma sig_seq_same N a b sa sb f : iso f a b -> sig_seq N a sa -> sig_seq N b sb -> sa = sb.
Proof.
  intros Is (Wa & Ta & La & Ha & ->) (Wb & Tb & Lb & Hb & ->). f_equal. apply lex_sort_canon. eapply chains_same; eauto.
Qed.

Section SeqMode.
  Variables (P : problem) (C : config) (c : vconf) (par : vpar).
  Hypothesis WP : wf_problem P.
  Hypothesis HC : forall l, Permutation l (c_perm C l).
  Hypothesis SM : seq_methods P.
  Hypothesis PS : vc_PS c = true.
  Hypothesis TP : vc_topo c = true.
  Hypothesis NT : vc_tasks c = length (p_prim P).

  Lemma seq_sequence w l n s tn pi : history P C w l -> In n l -> Rep P (w_heap w) n s tn pi ->
    exists sq, vis_sequence c par (w_heap w) n = Some sq /\ sig_seq (vc_tasks c) tn sq.
  Proof.
    intros H Hn R. destruct (history_net P C WP HC (fun tn => no_join_net tn /\ alone (p_init P) tn) one_succ) with (w := w) (l := l) (n := n) as (W & O & s' & tn' & pi' & R' & T & _); auto.
    - split; [intros x y z []|]. intros x y -> _ ->. reflexivity.
    - intros t x Wt [N A] M. split; [now apply no_join_minus|]. intros a b [Ha Na] La [Hb Nb]. cbn in *. auto.
    - intros t x m Wt [N A] M D. eapply no_join_dec; eauto. apply SM. apply (d_method _ _ _ _ _ D).
    - intros [|[|i]] ps G; try discriminate. injection G as <-. cbn. lia.
    - intros h x ps m inst O G Hm. eapply one_succ_ext; eauto.
    - assert (NJ : no_join_net tn). { destruct (Rep_iso P _ _ _ _ _ _ _ _ W R' R) as (_ & f & Is). eapply iso_no_join; eauto. apply R. }
      assert (LV : forall x, In x (heads n) -> live (w_heap w) n x) by (intros x Hx; exists x; split; [auto|apply rt_refl]).
      assert (DF : forall X, (forall x, In x X -> In x (heads n)) -> exists r, match X with [] => Some [] | x :: _ => to_dfs (length (w_heap w)) (w_heap w) x end = Some r).
      { intros [|x X] HX; [eauto|]. apply (to_dfs_defined P _ n s tn pi W R). apply LV, HX. now left. }
      destruct (DF (n_prim n)) as (r1 & E1); [intros; apply in_or_app; auto|]. destruct (DF (n_abs n)) as (r2 & E2); [intros; apply in_or_app; auto|].
      unfold vis_sequence. rewrite TP. cbn [orb].
      assert (EE : (if vc_TO c then _ <- match n_prim n with [] => Some [] | x :: _ => to_dfs (length (w_heap w)) (w_heap w) x end ;;
         match n_abs n with [] => Some [] | x :: _ => to_dfs (length (w_heap w)) (w_heap w) x end else Some []) = Some (if vc_TO c then r2 else [])).
      { rewrite E1, E2. cbn [obind]. now destruct (vc_TO c). }
      rewrite EE. cbn [obind]. rewrite PS.
      destruct (par_sequences_ok P (w_heap w) n s tn pi W R O NJ) with (N := vc_tasks c) as (Ls & CH & E).
      rewrite E. eexists. split; [reflexivity|]. split; [apply R|]. split; [|eauto].
      intros x Hx. apply (r_in _ _ _ _ _ _ R) in Hx as (i & Li & <-). destruct (get_some (w_heap w) i) as (ps & G); [eapply live_lt; eauto; apply R|].
      rewrite (r_lab _ _ _ _ _ _ R i ps) by auto. rewrite NT. eapply (wh_task _ _ W); eauto.
  Qed.
End SeqMode.

(** ** One access, when costs are stored *)
Definition entry := (N * list bool * nat)%type.
Definition ematch (b : N) (K : list bool) (e : entry) : Prop := fst e = (b, K).
Definition log_ok (noReopen : bool) (m : N -> list bool -> option payload) (log : list entry) : Prop := forall b K,
  match m b K with
  | None => forall e, In e log -> ~ ematch b K e
  | Some (PCost x) => (exists e, In e log /\ ematch b K e) /\
      (noReopen = false -> (exists e, In e log /\ ematch b K e /\ x = S (snd e)) /\ forall e, In e log -> ematch b K e -> x <= S (snd e))
  | Some (PNodes _) => False
  end.
Definition tab_inv (noReopen : bool) (v : vtable) (log : list entry) : Prop :=
  exists m, tabmap v m /\ tabfull v /\ log_ok noReopen m log /\ forall b, m b [] = None.

Lemma tab_inv_nil nr : tab_inv nr [] [].
Proof. exists (fun _ _ => None). split; [apply tabmap_nil|]. split; [apply tabfull_nil|]. split; [intros b K e []|reflexivity]. Qed.

Lemma cost_step c v log b K f acc : K <> [] -> (forall o, acc o = Some (snd (cost_access c f o))) -> tab_inv (vc_noReopen c) v log ->
  match tbl_access v b K acc with
  | Some (v', old) => tab_inv (vc_noReopen c) v' ((b, K, f) :: log) /\
      (fst (cost_access c f old) = false <-> exists e, In e log /\ ematch b K e /\ (vc_noReopen c = true \/ snd e <= f))
  | None => length K mod 64 = 0 /\ exists e r, In e log /\ r <> [] /\ ematch b (K ++ r) e
  end.
Proof.
  intros NK AE (m & TM & TF & LO & ME). pose proof (tbl_access_ok v m b K acc NK TM) as A.
  destruct (tbl_access v b K _) as [[v' old]|].
  - destruct A as (-> & TM' & TF'). split.
    + eexists. split; [exact TM'|]. split; [apply TF'; [intros o; rewrite AE; discriminate|auto]|]. rewrite AE. split.
      * intros b' K'. unfold mupd. destruct (N.eqb_spec b' b) as [Eb|Nb].
        -- destruct (list_eq_dec bool_dec K' K) as [EK|NEK].
           ++ subst b' K'. specialize (LO b K). destruct (m b K) as [[x|l]|]; cbn [cost_access snd]; [|destruct LO|].
              ** destruct LO as [(e & He & Me) LC]. destruct (vc_noReopen c) eqn:NR; cbn [snd].
                 { split; [exists e; split; [now right|auto]|discriminate]. }
                 destruct (LC eq_refl) as [(e1 & H1 & M1 & E1) Mn]. destruct (Nat.ltb_spec (S f) x) as [Lt|Ge]; cbn [snd].
                 { split; [exists e; split; [now right|auto]|]. intros _. split.
                   - exists (b, K, f). split; [now left|]. split; reflexivity.
                   - intros e2 [<-|H2] M2; [reflexivity|]. specialize (Mn e2 H2 M2). lia. }
                 { split; [exists e; split; [now right|auto]|]. intros _. split.
                   - exists e1. split; [now right|auto].
                   - intros e2 [<-|H2] M2; [cbn; lia|auto]. }
              ** split; [exists (b, K, f); split; [now left|reflexivity]|]. intros ->. split.
                 --- exists (b, K, f). split; [now left|]. split; reflexivity.
                 --- intros e2 [<-|H2] M2; [reflexivity|]. exfalso. eapply LO; eauto.
           ++ specialize (LO b' K'). subst b'. destruct (m b K') as [[x|l]|]; [|destruct LO|].
              ** destruct LO as [(e & He & Me) LC]. split; [exists e; split; [now right|auto]|]. intros NR. destruct (LC NR) as [(e1 & H1 & M1 & E1) Mn]. split.
                 --- exists e1. split; [now right|auto].
                 --- intros e2 [<-|H2] M2; [exfalso; apply NEK; unfold ematch in M2; cbn in M2; congruence|auto].
              ** intros e [<-|He] Me; [apply NEK; unfold ematch in Me; cbn in Me; congruence|]. eapply LO; eauto.
        -- specialize (LO b' K'). destruct (m b' K') as [[x|l]|]; [|destruct LO|].
           ++ destruct LO as [(e & He & Me) LC]. split; [exists e; split; [now right|auto]|]. intros NR. destruct (LC NR) as [(e1 & H1 & M1 & E1) Mn]. split.
              ** exists e1. split; [now right|auto].
              ** intros e2 [<-|H2] M2; [exfalso; apply Nb; unfold ematch in M2; cbn in M2; congruence|auto].
           ++ intros e [<-|He] Me; [apply Nb; unfold ematch in Me; cbn in Me; congruence|]. eapply LO; eauto.
      * intros b'. unfold mupd. rewrite ME. destruct (N.eqb b' b); auto. destruct (list_eq_dec bool_dec [] K) as [E|]; auto. congruence.
    + specialize (LO b K). destruct (m b K) as [[x|l]|]; cbn [cost_access fst]; [|destruct LO|].
      * destruct LO as [(e & He & Me) LC]. destruct (vc_noReopen c) eqn:NR; cbn [fst].
        { split; [intros _; exists e; auto|auto]. }
        destruct (LC eq_refl) as [(e1 & H1 & M1 & E1) Mn]. destruct (Nat.ltb_spec (S f) x) as [Lt|Ge]; cbn [fst].
        { split; [discriminate|]. intros (e2 & H2 & M2 & [Q|Q]); [discriminate|]. specialize (Mn e2 H2 M2). lia. }
        { split; [|auto]. intros _. exists e1. split; auto. split; auto. right. lia. }
      * split; [discriminate|]. intros (e & He & Me & _). exfalso. eapply LO; eauto.
  - destruct A as [A1 A2]. split; auto. destruct (A2 TF) as (K' & NM & r & Nr & ->). specialize (LO b (K ++ r)).
    destruct (m b (K ++ r)) as [[x|l]|]; [|destruct LO|congruence]. destruct LO as [(e & He & Me) _]. exists e, r. auto.
Qed.

(** ** The visited list in the modes that store sequences *)
Section Simple.
  Variables (P : problem) (C : config) (c : vconf) (par : vpar).
  Variable sig : tnet -> list nat -> Prop.
  Hypothesis OFF : vc_off c = false.
  Hypothesis MODE : vc_TO c || vc_PS c = true.
  Hypothesis TP : vc_topo c = true.
  Hypothesis NF : 0 < p_nfacts P.
  Hypothesis NB : 0 < vc_bits c.
  Hypothesis HS : forall w l n s tn pi, history P C w l -> In n l -> Rep P (w_heap w) n s tn pi ->
    exists sq, vis_sequence c par (w_heap w) n = Some sq /\ sig tn sq /\ forall t, In t sq -> t < 2 ^ vc_bits c.
  Hypothesis HI : forall a b sq, sig a sq -> sig b sq -> exists f, iso f a b.

  Definition kbits (st : list bool) (sq : list nat) : list bool := st ++ flat_map (bits_of (vc_bits c)) sq.

  (** A node of the search and its meaning. *)
  Definition op_ok (w : world) (n : node) (s : state) (tn : tnet) : Prop := exists l pi, history P C w l /\ In n l /\ Rep P (w_heap w) n s tn pi.

  Lemma kbits_inj st sq st' sq' : length st = length st' -> (forall t, In t sq -> t < 2 ^ vc_bits c) -> (forall t, In t sq' -> t < 2 ^ vc_bits c) ->
    kbits st sq = kbits st' sq' -> st = st' /\ sq = sq'.
  Proof using NB.
    intros L B B' E. unfold kbits in E.
    assert (E1 : st = st') by (apply (f_equal (firstn (length st))) in E; rewrite L in E at 2; rewrite !firstn_app, !Nat.sub_diag, !firstn_O, !app_nil_r, !firstn_all in E; auto).
    subst st'. apply app_inv_head in E. split; auto. eapply flat_bits_inj; eauto.
  Qed.

  Lemma insert_simple w v n s tn : op_ok w n s tn -> exists sq, vis_sequence c par (w_heap w) n = Some sq /\ sig tn sq /\ (forall t, In t sq -> t < 2 ^ vc_bits c) /\
    kbits (n_state n) sq <> [] /\ (forall o, v_acc c par w n o = Some (snd (cost_access c (vp_f par w n) o))) /\
    insertVisi c par w v n = ('(v', old) <- tbl_access v (vis_bucket c par w n sq) (kbits (n_state n) sq) (v_acc c par w n) ;;
                              Some (fst (cost_access c (vp_f par w n) old), v')).
  Proof.
    intros (l & pi & H & Hn & R). destruct (HS w l n s tn pi H Hn R) as (sq & E & Sg & B). exists sq. split; auto. split; auto. split; auto.
    assert (EA : forall old, v_act c par w n old = Some (cost_access c (vp_f par w n) old)) by (intros old; unfold v_act; now rewrite MODE).
    split; [|split].
    - intros Q. apply (f_equal (@length bool)) in Q. unfold kbits in Q. rewrite app_length, (r_len _ _ _ _ _ _ R) in Q. cbn in Q. lia.
    - intros o. unfold v_acc. rewrite EA. now destruct (cost_access c (vp_f par w n) o).
    - rewrite insertVisi_eq by auto. rewrite E. cbn [obind]. unfold vis_key, po_bits. rewrite (orb_comm (vc_PS c)), MODE. cbn [negb andb]. rewrite TP. cbn [obind]. rewrite app_nil_r.
      fold (kbits (n_state n) sq). destruct (tbl_access v _ _ _) as [[v' old]|]; cbn [obind]; auto. rewrite EA. cbn [obind]. now destruct (cost_access c (vp_f par w n) old).
  Qed.

  (** Every entry comes from a node in [L]. *)
  Definition from (L : list (state * tnet)) (e : entry) : Prop :=
    exists s tn st sq, In (s, tn) L /\ length st = p_nfacts P /\ (forall f, s f <-> get st f = Some true) /\ sig tn sq /\ (forall t, In t sq -> t < 2 ^ vc_bits c) /\ snd (fst e) = kbits st sq.
  Definition v_total (w : world) (v : vtable) (n : node) : bool * vtable := match insertVisi c par w v n with Some r => r | None => (true, v) end.
  Definition vinv (v : vtable) (L : list (state * tnet)) : Prop := exists log, tab_inv (vc_noReopen c) v log /\ forall e, In e log -> from L e.

  Lemma simple_step w v n s tn L : op_ok w n s tn -> vinv v L ->
    (fst (v_total w v n) = true -> vinv (snd (v_total w v n)) ((s, tn) :: L)) /\
    (fst (v_total w v n) = false -> vinv (snd (v_total w v n)) L /\ exists s2 tn2, In (s2, tn2) L /\ same_node s tn s2 tn2).
  Proof.
    intros OK (log & TI & FL). destruct (insert_simple w v n s tn OK) as (sq & Es & Sg & B & NK & AE & EI). destruct OK as (l & pi & H & Hn & R).
    set (b := vis_bucket c par w n sq) in *. set (K := kbits (n_state n) sq) in *. set (f := vp_f par w n) in *.
    assert (FM : forall e, from L e -> from ((s, tn) :: L) e) by (intros e (s2 & tn2 & st & sq2 & H2 & Q); exists s2, tn2, st, sq2; split; [now right|exact Q]).
    assert (NEW : from ((s, tn) :: L) (b, K, f)).
    { exists s, tn, (n_state n), sq. split; [now left|]. split; [apply R|]. split; [apply R|]. auto. }
    pose proof (cost_step c v log b K f _ NK AE TI) as ST. unfold v_total. rewrite EI.
    destruct (tbl_access v b K (v_acc c par w n)) as [[v' old]|]; cbn [obind fst snd].
    - destruct ST as [TI' AN]. split.
      + intros _. exists ((b, K, f) :: log). split; auto. intros e [<-|He]; auto.
      + intros Q. apply AN in Q as (e & He & Me & _). destruct (FL e He) as (s2 & tn2 & st & sq2 & H2 & L2 & S2 & G2 & B2 & E2).
        rewrite Me in E2. cbn in E2. apply kbits_inj in E2 as [ES EQ]; auto; [|rewrite L2; apply R]. split.
        * exists ((b, K, f) :: log). split; auto. intros e' [<-|He']; auto. exists s2, tn2, st, sq2. split; auto. split; auto. split; auto. split; auto. split; auto. cbn. unfold K. congruence.
        * exists s2, tn2. split; auto. split; [|subst sq2; eapply HI; eauto]. intros x. rewrite S2, <- ES. apply R.
    - split; [|discriminate]. intros _. exists log. split; auto.
  Qed.

  (** ** Sequences of accesses *)
  Fixpoint vis_run (v : vtable) (ops : list (world * node)) : option (list bool) :=
    match ops with
    | [] => Some []
    | (w, n) :: r => '(ok, v') <- insertVisi c par w v n ;; rs <- vis_run v' r ;; Some (ok :: rs)
    end.

  Hypothesis HI2 : forall a b sa sb f, iso f a b -> sig a sa -> sig b sb -> sa = sb.

  Record op := { o_w : world; o_n : node; o_s : state; o_tn : tnet }.
  Definition o_ok (o : op) : Prop := op_ok (o_w o) (o_n o) (o_s o) (o_tn o).
  Definition o_same (o o' : op) : Prop := same_node (o_s o) (o_tn o) (o_s o') (o_tn o').
  Definition o_f (o : op) : nat := vp_f par (o_w o) (o_n o).
  Definition o_of (o : op) (e : entry) : Prop :=
    exists sq, vis_sequence c par (w_heap (o_w o)) (o_n o) = Some sq /\ e = (vis_bucket c par (o_w o) (o_n o) sq, kbits (n_state (o_n o)) sq, o_f o).
  Definition o_hash (o o' : op) : Prop := vc_taskHash c = true -> o_same o o' -> vp_contained par (o_w o) (o_n o) = vp_contained par (o_w o') (o_n o').

  Lemma bools_ext (a b : list bool) : length a = length b -> (forall f, get a f = Some true <-> get b f = Some true) -> a = b.
  Proof.
    clear. revert b. induction a as [|x a IH]; intros [|y b] L E; try discriminate; auto. f_equal.
    - specialize (E 0). cbn in E. destruct x, y; auto; exfalso; [assert (Q : Some false = Some true) by (now apply E)|assert (Q : Some false = Some true) by (now apply E)]; discriminate.
    - apply IH; [cbn in L; lia|]. intros f. apply (E (S f)).
  Qed.

  Lemma same_key o o' e e' : o_ok o -> o_ok o' -> o_hash o o' -> o_of o e -> o_of o' e' -> (fst e = fst e' <-> o_same o o').
  Proof.
    intros K K' HH (sq & E & ->) (sq' & E' & ->). destruct K as (l & pi & Hh & Hn & R), K' as (l' & pi' & Hh' & Hn' & R').
    destruct (HS _ _ _ _ _ _ Hh Hn R) as (x & Ex & Sg & B). rewrite E in Ex. injection Ex as <-.
    destruct (HS _ _ _ _ _ _ Hh' Hn' R') as (x & Ex & Sg' & B'). rewrite E' in Ex. injection Ex as <-. cbn [fst].
    assert (LL : length (n_state (o_n o)) = length (n_state (o_n o'))) by (rewrite (r_len _ _ _ _ _ _ R), (r_len _ _ _ _ _ _ R'); auto). split.
    - intros Q. injection Q as _ Q. apply kbits_inj in Q as [ES EQ]; auto. subst sq'. split; [|eapply HI; eauto].
      intros f. rewrite (r_state _ _ _ _ _ _ R), (r_state _ _ _ _ _ _ R'), ES. reflexivity.
    - intros SN. assert (SN' := SN). destruct SN' as [ES (f & Is)]. assert (EQ : sq = sq') by (eapply HI2; eauto). subst sq'.
      assert (EN : n_state (o_n o) = n_state (o_n o')).
      { apply bools_ext; auto. intros x. rewrite <- (r_state _ _ _ _ _ _ R), <- (r_state _ _ _ _ _ _ R'). apply ES. }
      rewrite EN. f_equal. unfold vis_bucket. rewrite EN. destruct (vc_taskHash c) eqn:TH; auto. now rewrite (HH TH SN).
  Qed.

  Lemma flat_prefix sq : forall r sq', (forall t, In t sq -> t < 2 ^ vc_bits c) -> (forall t, In t sq' -> t < 2 ^ vc_bits c) ->
    flat_map (bits_of (vc_bits c)) sq' = flat_map (bits_of (vc_bits c)) sq ++ r -> exists r', sq' = sq ++ r' /\ r = flat_map (bits_of (vc_bits c)) r'.
  Proof using NB.
    clear NF. induction sq as [|x sq IH]; intros r sq' B B' E; [exists sq'; split; auto|].
    destruct sq' as [|y sq']; cbn in E.
    - apply (f_equal (@length bool)) in E. rewrite !app_length, bits_of_length in E. cbn in E. lia.
    - rewrite <- app_assoc in E. assert (E1 : x = y).
      { apply (bits_of_inj (vc_bits c)); [apply B; now left|apply B'; now left|]. apply (f_equal (firstn (vc_bits c))) in E. now rewrite !firstn_bits in E. }
      subst y. apply app_inv_head in E. apply IH in E as (r' & -> & ->); [exists r'; auto| |]; intros t Ht; [apply B|apply B']; now right.
  Qed.

  Definition clashes (o o' : op) : Prop := exists sq r, (forall f, o_s o f <-> o_s o' f) /\ sig (o_tn o) sq /\ r <> [] /\ sig (o_tn o') (sq ++ r) /\
    (p_nfacts P + vc_bits c * length sq) mod 64 = 0 /\ vis_bucket c par (o_w o) (o_n o) sq = vis_bucket c par (o_w o') (o_n o') (sq ++ r).

  Lemma run_inv ops : forall done log v, Forall o_ok ops -> Forall o_ok done -> (forall o o', In o ops -> In o' (ops ++ done) -> o_hash o o') -> Forall2 o_of done log -> tab_inv (vc_noReopen c) v log ->
    match vis_run v (map (fun o => (o_w o, o_n o)) ops) with
    | Some ans => length ans = length ops /\ forall i o, nth_error ops i = Some o ->
        (nth_error ans i = Some false <-> exists o', (In o' done \/ exists j, j < i /\ nth_error ops j = Some o') /\ o_same o o' /\ (vc_noReopen c = true \/ o_f o' <= o_f o))
    | None => exists i o o', nth_error ops i = Some o /\ (In o' done \/ exists j, j < i /\ nth_error ops j = Some o') /\ clashes o o'
    end.
  Proof.
    induction ops as [|o ops IH]; intros done log v HO HD HH F TI; cbn [map vis_run].
    - split; auto. intros [|i] o Q; discriminate.
    - inversion HO as [|? ? Ho HO']; subst. destruct (insert_simple (o_w o) v (o_n o) _ _ Ho) as (sq & Es & Sg & B & NK & AE & EI). rewrite EI. clear EI.
      set (b := vis_bucket c par (o_w o) (o_n o) sq) in *. set (K := kbits (n_state (o_n o)) sq) in *.
      assert (OO : o_of o (b, K, o_f o)) by (exists sq; auto).
      pose proof (cost_step c v log b K (o_f o) _ NK AE TI) as ST. fold (o_f o).
      destruct (tbl_access v b K (v_acc c par (o_w o) (o_n o))) as [[v' old]|]; cbn [obind].
      + destruct ST as [TI' AN]. specialize (IH (o :: done) ((b, K, o_f o) :: log) v' HO' ltac:(constructor; auto)).
        assert (HH' : forall o1 o', In o1 ops -> In o' (ops ++ o :: done) -> o_hash o1 o').
        { intros o1 o' H1 H2. apply HH; [now right|]. apply in_app_iff in H2 as [H2|[<-|H2]]; [right; apply in_or_app; auto|now left|right; apply in_or_app; auto]. }
        specialize (IH HH' ltac:(constructor; auto) TI'). destruct (vis_run v' _) as [ans|]; cbn [obind].
        * destruct IH as [EL IH]. split; [cbn; lia|]. intros [|i] o1 G; cbn in G.
          -- injection G as <-. cbn [nth_error]. split.
             ++ intros Q. injection Q as Q. apply AN in Q as (e & He & Me & Q). destruct (forall2_in_r _ _ _ _ F He) as (o' & Ho' & Oe).
                exists o'. split; [auto|]. split.
                ** apply (same_key o o' (b, K, o_f o) e); auto; [rewrite Forall_forall in HD; auto|apply HH; [now left|right; apply in_or_app; auto]].
                ** destruct Oe as (sq' & _ & ->). exact Q.
             ++ intros (o' & [Ho'|(j & Lj & _)] & SN & Q); [|lia]. f_equal. apply AN. destruct (forall2_in_l _ _ _ _ F Ho') as (e & He & Oe). exists e. split; auto. split.
                ** symmetry. apply (same_key o o' (b, K, o_f o) e); auto; [rewrite Forall_forall in HD; auto|apply HH; [now left|right; apply in_or_app; auto]].
                ** destruct Oe as (sq' & _ & ->). exact Q.
          -- cbn [nth_error]. rewrite (IH i o1 G). split; intros (o' & Ho' & SN & Q); exists o'; (split; [|auto]).
             ++ destruct Ho' as [[<-|Ho']|(j & Lj & Gj)]; [right; exists 0; split; [lia|auto]|auto|right; exists (S j); split; [lia|auto]].
             ++ destruct Ho' as [Ho'|([|j] & Lj & Gj)]; [left; now right|cbn in Gj; injection Gj as <-; left; now left|right; exists j; split; [lia|auto]].
        * destruct IH as (i & o1 & o' & G & Ho' & CL). exists (S i), o1, o'. split; auto. split; auto.
          destruct Ho' as [[<-|Ho']|(j & Lj & Gj)]; [right; exists 0; split; [lia|auto]|auto|right; exists (S j); split; [lia|auto]].
      + destruct ST as (ML & e & r & He & Nr & Me). destruct (forall2_in_r _ _ _ _ F He) as (o' & Ho' & (sq' & E' & ->)). exists 0, o, o'. split; auto. split; auto.
        assert (K' : o_ok o') by (rewrite Forall_forall in HD; auto). destruct Ho as (l & pi & Hh & Hn & R). destruct K' as (l' & pi' & Hh' & Hn' & R').
        destruct (HS _ _ _ _ _ _ Hh' Hn' R') as (x & Ex & Sg' & B'). rewrite E' in Ex. injection Ex as <-.
        unfold ematch in Me. cbn [fst] in Me. injection Me as Eb Me. unfold K, kbits in Me.
        assert (LL : length (n_state (o_n o')) = length (n_state (o_n o))) by (rewrite (r_len _ _ _ _ _ _ R), (r_len _ _ _ _ _ _ R'); auto).
        assert (EN : n_state (o_n o') = n_state (o_n o)).
        { apply (f_equal (firstn (length (n_state (o_n o'))))) in Me. rewrite LL in Me at 2. rewrite <- app_assoc in Me. rewrite !firstn_app, !Nat.sub_diag, !firstn_O, !app_nil_r, !firstn_all in Me. auto. }
        rewrite EN, <- app_assoc in Me. apply app_inv_head in Me. apply flat_prefix in Me as (r' & -> & ->); auto.
        exists sq, r'. split; [intros f; rewrite (r_state _ _ _ _ _ _ R), (r_state _ _ _ _ _ _ R'), EN; reflexivity|]. split; auto. split; [intros ->; now apply Nr|]. split; auto.
        assert (LF : length (flat_map (bits_of (vc_bits c)) sq) = vc_bits c * length sq).
        { clear. induction sq as [|x sq IH]; cbn [flat_map length]; [now rewrite Nat.mul_0_r|]. rewrite app_length, bits_of_length, Nat.mul_succ_r. lia. }
        unfold K, kbits in ML. rewrite app_length, (r_len _ _ _ _ _ _ R), LF in ML. split; [exact ML|]. symmetry. exact Eb.
  Qed.
End Simple.
