(** Correctness of the component tables, of the component graph and of the reachability table of Scc_model. *)
From Verif Require Import Base Scc_spec Scc_model Tab_proof Scc_proof.
From Coq Require Import Sorted.

(** ** Ordered sets *)
Notation asc := (StronglySorted lt).

Lemma ins_in x l y : In y (ins x l) <-> y = x \/ In y l.
Proof.
  induction l as [|a l IH]; cbn [ins]; [cbn; intuition auto|]. destruct (Nat.ltb_spec x a); [cbn; intuition auto|].
  destruct (Nat.eqb_spec x a); [subst; cbn; intuition auto|]. cbn. rewrite IH. intuition auto.
Qed.
Lemma ins_asc x l : asc l -> asc (ins x l).
Proof.
  induction 1 as [|a l H IH F]; cbn [ins]; [repeat constructor|]. destruct (Nat.ltb_spec x a).
  - constructor; [constructor; auto|]. constructor; auto. eapply Forall_impl; [|exact F]. cbn; lia.
  - destruct (Nat.eqb_spec x a); [constructor; auto|]. constructor; auto. rewrite Forall_forall in *. intros y Hy.
    apply ins_in in Hy as [->|Hy]; [lia|auto].
Qed.
Lemma asc_nodup l : asc l -> NoDup l.
Proof. induction 1 as [|a l H IH F]; constructor; auto. intros X. rewrite Forall_forall in F. apply F in X. lia. Qed.

Definition ins_all (last : nat) := fold_left (fun acc t => if Nat.ltb t last then ins t acc else acc).
Lemma ins_all_in last l : forall acc t, In t (ins_all last l acc) <-> In t acc \/ (In t l /\ t < last).
Proof.
  induction l as [|a l IH]; intros acc t; cbn [ins_all fold_left]; [cbn; tauto|]. fold (ins_all last l). cbn [In]. rewrite IH. destruct (Nat.ltb_spec a last).
  - rewrite ins_in. split; [intuition auto; subst; auto|]. intros [H1|[[->|H1] H2]]; auto.
  - split; [intuition auto|]. intros [H1|[[->|H1] H2]]; auto. lia.
Qed.
Lemma ins_all_asc last l : forall acc, asc acc -> asc (ins_all last l acc).
Proof.
  induction l as [|a l IH]; intros acc H; cbn [ins_all fold_left]; auto. apply IH. destruct (Nat.ltb a last); auto. now apply ins_asc.
Qed.

(** ** Component tables *)
Section Comp.
  Variable G : graph.
  Hypothesis WF : graph_wf G.
  Variable scc : list (option nat).
  Variable num : nat.
  Hypothesis CP : components G (fun v => v < length G) scc num.
  Notation edge := (edge G).
  Notation reach := (reach G).

  Definition comp v k := get scc v = Some (Some k).
  Definition isk k (o : option nat) := match o with Some j => Nat.eqb j k | None => false end.
  Definition members k := filter (fun v => isk k (nth v scc None)) (seq 0 (length scc)).

  Lemma comp_ex v : v < length G -> exists k, comp v k.
  Proof using CP. intros. now apply (c_dom _ _ _ _ CP). Qed.
  Lemma comp_lt v k : comp v k -> v < length G /\ k < num.
  Proof using CP. intros H. split; [apply get_lt in H; now rewrite (c_len _ _ _ _ CP) in H|]. now apply (c_lt _ _ _ _ CP) in H. Qed.
  Lemma comp_fun v k k' : comp v k -> comp v k' -> k = k'.
  Proof using. unfold comp. congruence. Qed.
  Lemma members_in k v : In v (members k) <-> comp v k.
  Proof using.
    unfold members, comp. rewrite filter_In, in_seq. split.
    - intros [L H]. rewrite (get_nth_def scc v None) by lia. unfold isk in H. destruct (nth v scc None); [|discriminate].
      apply Nat.eqb_eq in H. now subst.
    - intros H. assert (v < length scc) by (now apply get_lt in H). split; [lia|]. rewrite (get_nth_def scc v None) in H by lia.
      injection H as ->. cbn. apply Nat.eqb_refl.
  Qed.

  Definition cnt (k : nat) (l : list (option nat)) := length (filter (isk k) l).
  Lemma cnt_app k l l' : cnt k (l ++ l') = cnt k l + cnt k l'.
  Proof using. unfold cnt. now rewrite filter_app, app_length. Qed.
  Lemma cnt_members k : cnt k scc = length (members k).
  Proof using.
    unfold members, cnt. assert (Q : forall l o, length (filter (isk k) l) =
      length (filter (fun v => isk k (nth (v - o) l None)) (seq o (length l)))).
    { induction l as [|a l IH]; intros o; cbn [length seq]; auto. cbn [filter].
      assert (E : filter (fun v => isk k (nth (v - o) (a :: l) None)) (seq (S o) (length l)) =
                  filter (fun v => isk k (nth (v - S o) l None)) (seq (S o) (length l))).
      { apply filter_ext_in. intros v Hv. apply in_seq in Hv. replace (v - o) with (S (v - S o)) by lia. reflexivity. }
      rewrite E, Nat.sub_diag. cbn [nth]. destruct (isk k a); cbn [length]; rewrite <- IH; auto. }
    rewrite (Q scc 0). f_equal. apply filter_ext. intros v. now rewrite Nat.sub_0_r.
  Qed.

  Definition nbig (sz : list nat) := length (filter (fun x => Nat.ltb 1 x) sz).
  Lemma nbig_set sz j x sz' : get sz j = Some x -> set sz j (S x) = Some sz' ->
    nbig sz' = nbig sz + if Nat.eqb (S x) 2 then 1 else 0.
  Proof using.
    unfold nbig. revert j sz'. induction sz as [|a sz IH]; intros [|j] sz' H E; cbn [get nth_error set] in *; try discriminate.
    - injection H as ->. injection E as <-. cbn [filter]. destruct x as [|[|x]]; cbn; lia.
    - inv_opt. subst. cbn [filter]. destruct (Nat.ltb 1 a); cbn [length]; rewrite (IH _ _ H E0); lia.
  Qed.

  Lemma scc_sizes_ok : exists sz c, scc_sizes num scc = Some (sz, c) /\ length sz = num /\
    (forall k, k < num -> get sz k = Some (length (members k))) /\ c = nbig sz.
  Proof using CP.
    unfold scc_sizes. match goal with |- context [ofold ?f _ _] => set (F := f) end.
    destruct (ofold_prefix F (fun P '(sz, c) => length sz = num /\ (forall k, k < num -> get sz k = Some (cnt k P)) /\ c = nbig sz)
      scc (repeat 0 num, 0)) as ([sz c] & E & H).
    - split; [apply repeat_length|]. split; [intros; now rewrite get_repeat|].
      unfold nbig. clear. induction num; cbn; auto.
    - intros pre o post [sz c] EQ (L & H & Hc). assert (Ho : exists k, o = Some k /\ k < num).
      { destruct (comp_ex (length pre)) as (k & Hk).
        { rewrite <- (c_len _ _ _ _ CP), EQ, app_length. cbn. lia. }
        exists k. split; [|now apply comp_lt in Hk]. unfold comp in Hk. rewrite EQ, get_app_mid in Hk. congruence. }
      destruct Ho as (k & -> & Lk). unfold F. cbn [obind]. rewrite (H k Lk). cbn [obind].
      destruct (set_some sz k (S (cnt k pre))) as (sz' & Es); [lia|]. rewrite Es. cbn [obind]. eexists. split; [reflexivity|].
      split; [rewrite (set_length _ _ _ _ Es); auto|]. split.
      + intros j Lj. rewrite (get_set_any _ _ _ _ j Es), cnt_app. unfold cnt at 3. cbn [filter isk].
        destruct (Nat.eqb_spec j k) as [->|N].
        * rewrite Nat.eqb_refl. cbn. f_equal. lia.
        * rewrite H by auto. f_equal. destruct (Nat.eqb_spec k j); [congruence|]. cbn. lia.
      + rewrite (nbig_set _ _ _ _ (H k Lk) Es). destruct (Nat.eqb (S (cnt k pre)) 2); lia.
    - exists sz, c. destruct H as (L & H & Hc). split; auto. split; auto. split; auto.
      intros k Lk. rewrite H by auto. now rewrite cnt_members.
  Qed.

  Lemma scc_tasks_ok sz : length sz = num -> (forall k, k < num -> get sz k = Some (length (members k))) ->
    exists T, scc_tasks num sz scc = Some T /\ length T = num /\ forall k, k < num -> get T k = Some (members k).
  Proof using CP.
    intros LS HS. unfold scc_tasks. match goal with |- context [ofold ?f _ _] => set (F := f) end.
    set (part P k := filter (fun v => isk k (nth v scc None)) P).
    destruct (ofold_prefix F (fun P T => length T = num /\ forall k, k < num -> get T k = Some (part P k))
      (seq 0 (length scc)) (repeat [] num)) as (T & E & L & H).
    - split; [apply repeat_length|]. intros. now rewrite get_repeat.
    - intros pre v post T EQ (L & H). destruct (seq_prefix _ _ _ _ EQ) as (_ & _ & LV).
      destruct (comp_ex v) as (k & Hk); [now rewrite <- (c_len _ _ _ _ CP)|]. assert (Lk := proj2 (comp_lt v k Hk)).
      unfold F. assert (Hk' := Hk). unfold comp in Hk'. rewrite Hk'. cbn [obind]. rewrite (H k Lk), (HS k Lk). cbn [obind].
      assert (Iv : isk k (nth v scc None) = true).
      { rewrite (get_nth_def scc v None) in Hk' by auto. injection Hk' as ->. cbn. apply Nat.eqb_refl. }
      assert (LT : length (part pre k) < length (members k)).
      { unfold members. rewrite EQ, filter_app. cbn [filter]. rewrite Iv, app_length. cbn. fold (part pre k). lia. }
      apply Nat.ltb_lt in LT. rewrite LT. destruct (set_some T k (part pre k ++ [v])) as (T' & ET); [lia|]. rewrite ET.
      eexists. split; [reflexivity|]. split; [rewrite (set_length _ _ _ _ ET); auto|].
      intros j Lj. rewrite (get_set_any _ _ _ _ j ET). unfold part. rewrite filter_app. cbn [filter].
      destruct (Nat.eqb_spec j k) as [->|N].
      + now rewrite Iv.
      + rewrite H by auto. destruct (isk j (nth v scc None)) eqn:Ij; [|now rewrite app_nil_r].
        exfalso. unfold isk in Ij, Iv. destruct (nth v scc None); [|discriminate]. apply Nat.eqb_eq in Ij, Iv. congruence.
    - exists T. auto.
  Qed.

  (** A component is cyclic if some task of it can be reached from itself by at least one decomposition. *)
  Definition cyclic k := exists u w, comp u k /\ edge u w /\ reach w u.

  Lemma self_loops_ok sz T : length sz = num -> (forall k, k < num -> get sz k = Some (length (members k))) ->
    (forall k, k < num -> get T k = Some (members k)) ->
    exists l, self_loops G sz T = Some l /\ asc l /\ forall k, In k l <-> k < num /\ exists t, members k = [t] /\ edge t t.
  Proof using CP.
    intros LS HS HT. unfold self_loops. match goal with |- context [ofold ?f _ _] => set (F := f) end.
    destruct (ofold_prefix F (fun P l => asc l /\ forall k, In k l <-> In k P /\ exists t, members k = [t] /\ edge t t)
      (seq 0 (length sz)) []) as (l & E & A & H).
    - split; [constructor|]. cbn. tauto.
    - intros pre k post l EQ (A & H). destruct (seq_prefix _ _ _ _ EQ) as (Ek & Epre & LV). rewrite LS in LV.
      unfold F. rewrite (HS k LV). cbn [obind]. destruct (Nat.eqb_spec (length (members k)) 1) as [E1|N1].
      + rewrite (HT k LV). cbn [obind]. destruct (members k) as [|t [|]] eqn:EM; try discriminate. cbn [get nth_error obind].
        assert (Lt : t < length G). { assert (Q : comp t k) by (apply members_in; rewrite EM; now left). now apply comp_lt in Q. }
        destruct (get_some G t Lt) as (ns & En). rewrite En. cbn [obind].
        eexists. split; [reflexivity|]. destruct (memb t ns) eqn:M.
        * apply memb_In in M. split; [now apply ins_asc|]. intros j. rewrite ins_in, H, in_app_iff. cbn. split.
          -- intros [->|[H1 H2]]; [|auto]. split; auto. exists t. split; auto. exists ns. auto.
          -- intros [[H1|[H1|[]]] H2]; auto.
        * apply memb_false in M. split; auto. intros j. rewrite H, in_app_iff. cbn. split; [tauto|].
          intros [[H1|[<-|[]]] H2]; auto. exfalso. destruct H2 as (t' & Et & (ns' & E1' & E2')). rewrite EM in Et. injection Et as <-.
          unfold get in En. rewrite En in E1'. injection E1' as <-. auto.
      + eexists. split; [reflexivity|]. split; auto. intros j. rewrite H, in_app_iff. cbn. split; [tauto|].
        intros [[H1|[<-|[]]] H2]; auto. exfalso. destruct H2 as (t & Et & _). rewrite Et in N1. auto.
    - exists l. split; auto. split; auto. intros k. rewrite H, in_seq, LS. split; intros [Q1 Q2]; split; auto; lia.
  Qed.

  Lemma members_nonempty k : k < num -> exists v r, members k = v :: r.
  Proof using CP.
    intros L. destruct (c_used _ _ _ _ CP k L) as (v & Hv). apply members_in in Hv. destruct (members k); [easy|eauto].
  Qed.
  Lemma members_nodup k : NoDup (members k).
  Proof using. unfold members. apply NoDup_filter, seq_NoDup. Qed.
  Lemma comp_mutual u v k : comp u k -> comp v k -> mutual G u v.
  Proof using CP. intros H1 H2. now apply (c_same _ _ _ _ CP u v k k H1 H2). Qed.

  Lemma cyclic_iff k : k < num -> cyclic k <-> (1 < length (members k) \/ exists t, members k = [t] /\ edge t t).
  Proof using CP WF.
    intros L. split.
    - intros (u & w & Hu & E & R). apply members_in in Hu as Hm. destruct (members k) as [|a [|b r]] eqn:EM; [easy| |cbn; left; lia].
      right. exists a. split; auto. destruct Hm as [<-|[]].
      assert (Lw : w < length G) by (eapply WF; eauto). destruct (comp_ex w Lw) as (k' & Hk').
      assert (k = k') as <-. { apply (c_same _ _ _ _ CP a w); auto. split; auto. now apply reach_edge. }
      apply members_in in Hk'. rewrite EM in Hk'. destruct Hk' as [<-|[]]. auto.
    - intros [H|(t & EM & E)].
      + assert (ND := members_nodup k). destruct (members k) as [|a [|b r]] eqn:EM; cbn in H; try lia.
        assert (Ha : comp a k) by (apply members_in; rewrite EM; now left).
        assert (Hb : comp b k) by (apply members_in; rewrite EM; right; now left).
        destruct (comp_mutual a b k Ha Hb) as [R1 R2]. inversion R1 as [|? w ? E R]; subst.
        * inversion ND as [|? ? N1 N2]; subst. exfalso. apply N1. now left.
        * exists a, w. split; auto. split; auto. eapply reach_trans; eauto.
      + exists t, t. split; [apply members_in; rewrite EM; now left|]. split; auto. constructor.
  Qed.

  Lemma sccs_cyclic_ok sz c l : length sz = num -> (forall k, k < num -> get sz k = Some (length (members k))) -> c = nbig sz ->
    NoDup l -> (forall k, In k l <-> k < num /\ exists t, members k = [t] /\ edge t t) ->
    exists cyc, sccs_cyclic sz c l = Some cyc /\ NoDup cyc /\ forall k, In k cyc <-> k < num /\ cyclic k.
  Proof using CP WF.
    intros LS HS -> ND HL. unfold sccs_cyclic.
    assert (SZ : forall k, k < num -> nth k sz 0 = length (members k)).
    { intros k L. assert (Q := HS k L). rewrite (get_nth_def sz k 0) in Q by lia. congruence. }
    assert (E : nbig sz = length (filter (fun i => Nat.ltb 1 (nth i sz 0)) (seq 0 (length sz)))).
    { unfold nbig. clear. assert (Q : forall l o, length (filter (fun x => Nat.ltb 1 x) l) = length (filter (fun i => Nat.ltb 1 (nth (i - o) l 0)) (seq o (length l)))).
      { induction l as [|a l IH]; intros o; [reflexivity|]. cbn [length seq filter].
        assert (E : filter (fun i => Nat.ltb 1 (nth (i - o) (a :: l) 0)) (seq (S o) (length l)) =
                    filter (fun i => Nat.ltb 1 (nth (i - S o) l 0)) (seq (S o) (length l))).
        { apply filter_ext_in. intros v Hv. apply in_seq in Hv. replace (v - o) with (S (v - S o)) by lia. reflexivity. }
        rewrite E, Nat.sub_diag. cbn [nth]. destruct (Nat.ltb 1 a); cbn [length]; rewrite <- IH; auto. }
      rewrite (Q sz 0). f_equal. apply filter_ext. intros. now rewrite Nat.sub_0_r. }
    rewrite app_length, <- E, Nat.eqb_refl. eexists. split; [reflexivity|]. split.
    - apply nodup_app_iff. split; [apply NoDup_filter, seq_NoDup|]. split; auto. intros k H1 H2.
      apply filter_In in H1 as [H1 H3]. apply in_seq in H1. apply HL in H2 as (_ & t & Et & _). rewrite SZ, Et in H3 by lia. discriminate.
    - intros k. rewrite in_app_iff, filter_In, in_seq, HL, LS. split.
      + intros [[H1 H2]|[H1 H2]]; (split; [lia|]); apply cyclic_iff; auto; try lia. left. apply Nat.ltb_lt in H2. rewrite SZ in H2; lia.
      + intros [H1 H2]. apply cyclic_iff in H2 as [H2|H2]; auto. left. split; [lia|]. apply Nat.ltb_lt. rewrite SZ; auto.
  Qed.
End Comp.

(** All tables of calcSCCs. *)
Record sccs_ok (G : graph) (C : sccs) : Prop := {
  so_comp : components G (fun v => v < length G) (s_of C) (s_num C);
  so_size : length (s_size C) = s_num C /\ forall k, k < s_num C -> get (s_size C) k = Some (length (members (s_of C) k));
  so_tasks : length (s_tasks C) = s_num C /\ forall k, k < s_num C -> get (s_tasks C) k = Some (members (s_of C) k);
  so_cyclic : NoDup (s_cyclic C) /\ forall k, In k (s_cyclic C) <-> k < s_num C /\ cyclic G (s_of C) k }.

Lemma calcSCCs_ok G v0 d l : graph_wf G -> v0 < length G -> length d = length G -> length l = length G ->
  (forall v, v < length G -> reach G v0 v) -> exists C, calcSCCs G v0 d l = Some C /\ sccs_ok G C.
Proof.
  intros WF L Ld Ll ALL. unfold calcSCCs. destruct (scc_from_ok G WF v0 d l L Ld Ll) as (st & -> & CP). cbn [obind].
  assert (CP' : components G (fun v => v < length G) (t_scc st) (t_num st)).
  { destruct CP as [C1 C2 C3 C4 C5 C6]. split; auto. intros v. rewrite <- C2. split; auto. intros R.
    apply reach_closed1 with (B := fun z => z < length G) in R; auto. intros x y _ E. eapply WF; eauto. }
  destruct (scc_sizes_ok G _ _ CP') as (sz & c & -> & LS & HS & Hc). cbn [obind].
  destruct (scc_tasks_ok G _ _ CP' sz LS HS) as (T & -> & LT & HT). cbn [obind].
  destruct (self_loops_ok G _ _ CP' sz T LS HS HT) as (lo & -> & A & HL). cbn [obind].
  destruct (sccs_cyclic_ok G WF _ _ CP' sz c lo LS HS Hc (asc_nodup _ A) HL) as (cyc & -> & NC & HC). cbn [obind].
  eexists. split; [reflexivity|]. split; cbn; auto.
Qed.

(** ** The component graph *)
Section Graph.
  Variable G : graph.
  Hypothesis WF : graph_wf G.
  Variable C : sccs.
  Hypothesis OK : sccs_ok G C.
  Notation edge := (edge G).
  Notation reach := (reach G).
  Notation comp := (comp (s_of C)).
  Notation num := (s_num C).
  Let CP := so_comp _ _ OK.

  Definition cedge f t := f <> t /\ exists v w, edge v w /\ comp v f /\ comp w t.

  Definition rows_ok (Sc Pr : list (list nat)) (Q : nat -> nat -> Prop) : Prop :=
    length Sc = num /\ length Pr = num /\
    (forall f r, get Sc f = Some r -> asc r /\ forall t, In t r <-> Q f t) /\
    (forall t r, get Pr t = Some r -> asc r /\ forall f, In f r <-> Q f t).

  Lemma rows_ext Sc Pr (Q Q' : nat -> nat -> Prop) : (forall f t, f < num -> t < num -> Q f t <-> Q' f t) ->
    (forall f t, Q f t -> f < num /\ t < num) -> (forall f t, Q' f t -> f < num /\ t < num) -> rows_ok Sc Pr Q -> rows_ok Sc Pr Q'.
  Proof using.
    intros E B B' (L1 & L2 & H1 & H2). split; auto. split; auto. split.
    - intros f r Hr. destruct (H1 f r Hr) as [A I]. split; auto. intros t. rewrite I. apply get_lt in Hr. split; intros H.
      + destruct (B _ _ H). apply E; auto.
      + destruct (B' _ _ H). apply E; auto.
    - intros t r Hr. destruct (H2 t r Hr) as [A I]. split; auto. intros f. rewrite I. apply get_lt in Hr. split; intros H.
      + destruct (B _ _ H). apply E; auto.
      + destruct (B' _ _ H). apply E; auto.
  Qed.

  Lemma scc_graph_ok : exists Sc Pr, scc_graph G C = Some (Sc, Pr) /\ rows_ok Sc Pr cedge.
  Proof using WF OK.
    unfold scc_graph. match goal with |- context [ofold ?f _ _] => set (F := f) end.
    set (Qp (P : list nat) (v0 : nat) (W : list nat) := fun f t => f <> t /\ exists v w, edge v w /\ comp v f /\ comp w t /\ (In v P \/ (v = v0 /\ In w W))).
    assert (QB : forall P v0 W f t, Qp P v0 W f t -> f < num /\ t < num).
    { intros P v0 W0 f t (_ & v & w & _ & H1 & H2 & _). split; eapply comp_lt; eauto. }
    destruct (ofold_prefix F (fun P '(Sc, Pr) => rows_ok Sc Pr (Qp P 0 [])) (seq 0 (length G)) (repeat [] num, repeat [] num)) as ([Sc Pr] & E & H).
    - split; [apply repeat_length|]. split; [apply repeat_length|].
      split; intros f r Hr; assert (f < num) by (apply get_lt in Hr; rewrite repeat_length in Hr; auto); rewrite get_repeat in Hr by auto;
        injection Hr as <-; (split; [constructor|]); intros t; (split; [easy|]); intros (_ & v & w & _ & _ & _ & [[]|[_ []]]).
    - intros pre v post [Sc Pr] EQ H. destruct (seq_prefix _ _ _ _ EQ) as (_ & _ & LV). unfold F.
      destruct (get_some G v LV) as (ns & En). rewrite En. cbn [obind].
      destruct (comp_ex G _ _ CP v LV) as (f & Hf). assert (Hf' := Hf). unfold Reach_proof.comp in Hf'. rewrite Hf'. cbn [obind].
      assert (Lf := proj2 (comp_lt G _ _ CP _ _ Hf)).
      match goal with |- context [ofold ?f _ _] => set (F2 := f) end.
      destruct (ofold_prefix F2 (fun W '(Sc, Pr) => rows_ok Sc Pr (Qp pre v W)) ns (Sc, Pr)) as ([S2 Pr2] & E2 & H2).
      + eapply rows_ext; [| | |exact H]; try apply QB. intros a b _ _. unfold Qp. split; intros (N & x & y & E1 & E2 & E3 & E4); (split; auto);
          exists x, y; intuition auto; easy.
      + clear H Sc Pr. intros W w post' [Sc Pr] EQ' H. assert (HE : edge v w). { exists ns. split; auto. rewrite EQ'. apply in_or_app; right; now left. }
        unfold F2. destruct (comp_ex G _ _ CP w (WF _ _ HE)) as (t & Ht). assert (Ht' := Ht). unfold Reach_proof.comp in Ht'. rewrite Ht'. cbn [obind].
        assert (Lt := proj2 (comp_lt G _ _ CP _ _ Ht)).
        destruct (Nat.eqb_spec f t) as [->|N].
        * eexists. split; [reflexivity|]. eapply rows_ext; [| | |exact H]; try apply QB. intros a b _ _. unfold Qp.
          split; intros (N & x & y & E1 & E2 & E3 & E4); (split; auto); exists x, y; (split; [auto|split; [auto|split; [auto|]]]).
          -- rewrite in_app_iff. intuition auto.
          -- rewrite in_app_iff in E4. destruct E4 as [E4|[-> [E4|[E4|[]]]]]; auto. subst. exfalso. apply N.
             rewrite (comp_fun _ _ _ _ E2 Hf). eapply comp_fun; eauto.
        * destruct H as (L1 & L2 & H1 & H2). destruct (get_some Sc f) as (rs & Er); [lia|]. rewrite Er. cbn [obind].
          destruct (set_some Sc f (ins t rs)) as (S' & ES); [lia|]. rewrite ES. cbn [obind].
          destruct (get_some Pr t) as (rp & Ep); [lia|]. rewrite Ep. cbn [obind].
          destruct (set_some Pr t (ins f rp)) as (Pr' & EP); [lia|]. rewrite EP. cbn [obind]. eexists. split; [reflexivity|].
          assert (QQ : forall a b, Qp pre v (W ++ [w]) a b <-> Qp pre v W a b \/ (a = f /\ b = t)).
          { intros a b. unfold Qp. split.
            - intros (N' & x & y & E1 & E2 & E3 & E4). rewrite in_app_iff in E4. destruct E4 as [E4|[-> [E4|[E4|[]]]]].
              + left. split; auto. exists x, y. auto 10.
              + left. split; auto. exists v, y. auto 10.
              + subst. right. split; [exact (comp_fun _ _ _ _ E2 Hf)|exact (comp_fun _ _ _ _ E3 Ht)].
            - intros [(N' & x & y & E1 & E2 & E3 & E4)|[-> ->]]; (split; auto).
              + exists x, y. rewrite in_app_iff. intuition auto.
              + exists v, w. rewrite in_app_iff. cbn. intuition auto. }
          split; [rewrite (set_length _ _ _ _ ES); auto|]. split; [rewrite (set_length _ _ _ _ EP); auto|]. split.
          -- intros a r Hr. rewrite (get_set_any _ _ _ _ a ES) in Hr. destruct (Nat.eqb_spec a f) as [->|Na].
             ++ injection Hr as <-. destruct (H1 f rs Er) as [A I]. split; [now apply ins_asc|]. intros b. rewrite ins_in, I, QQ. intuition auto.
             ++ destruct (H1 a r Hr) as [A I]. split; auto. intros b. rewrite I, QQ. intuition congruence.
          -- intros a r Hr. rewrite (get_set_any _ _ _ _ a EP) in Hr. destruct (Nat.eqb_spec a t) as [->|Na].
             ++ injection Hr as <-. destruct (H2 t rp Ep) as [A I]. split; [now apply ins_asc|]. intros b. rewrite ins_in, I, QQ. intuition auto.
             ++ destruct (H2 a r Hr) as [A I]. split; auto. intros b. rewrite I, QQ. intuition congruence.
      + rewrite E2. eexists. split; [reflexivity|]. eapply rows_ext; [| | |exact H2]; try apply QB. intros a b _ _. unfold Qp.
        split; intros (N & x & y & E1' & E2' & E3 & E4); (split; auto); exists x, y; (split; [auto|split; [auto|split; [auto|]]]).
        * rewrite in_app_iff. cbn. intuition auto.
        * rewrite in_app_iff in E4. cbn in E4. destruct E4 as [[E4|[E4|[]]]|[_ []]]; auto. subst x. right. split; auto.
          destruct E1' as (ns' & Q1 & Q2). unfold get in En. congruence.
    - exists Sc, Pr. split; auto. eapply rows_ext; [| | |exact H]; try apply QB.
      + intros a b _ _. unfold Qp, cedge. split; intros (N & x & y & E1 & E2 & E3); (split; auto); exists x, y; (split; [auto|split; [auto|]]).
        * tauto.
        * split; auto. left. apply in_seq. apply comp_lt with (G := G) (num := num) in E2 as [Q _]; auto. lia.
      + intros f t (_ & v & w & _ & H1 & H2). split; eapply comp_lt; eauto.
  Qed.

  Lemma cedge_lt f t : cedge f t -> f < num /\ t < num /\ t < f.
  Proof using OK.
    intros (N & v & w & E & H1 & H2). split; [eapply comp_lt; eauto|]. split; [eapply comp_lt; eauto|].
    destruct (c_order _ _ _ _ CP v w f H1 E) as (k' & H & L). assert (k' = t) as -> by (eapply comp_fun; eauto). lia.
  Qed.

  (** *** Cyclicity *)
  Lemma reach_comp v t k : comp v k -> reach v t ->
    comp t k \/ exists k' y, cedge k k' /\ comp y k' /\ reach y t.
  Proof using WF OK.
    intros H R. induction R as [|u x w E R IH]; auto.
    destruct (comp_ex G _ _ CP x (WF _ _ E)) as (j & Hj). destruct (Nat.eq_dec k j) as [->|N].
    - apply IH; auto.
    - right. exists j, x. split; [|auto]. split; auto. exists u, x. auto.
  Qed.

  Definition reaches_cycle v := exists u w, reach v u /\ edge u w /\ reach w u.

  Lemma reaches_cycle_comp v k : comp v k -> reaches_cycle v <-> cyclic G (s_of C) k \/ exists k' y, cedge k k' /\ comp y k' /\ reaches_cycle y.
  Proof using WF OK.
    intros H. split.
    - intros (u & w & R & E & R'). destruct (reach_comp v u k H R) as [Hu|(k' & y & H1 & H2 & H3)].
      + left. exists u, w. auto.
      + right. exists k', y. split; auto. split; auto. exists u, w. auto.
    - intros [(u & w & H1 & H2 & H3)|(k' & y & (N & a & b & E & Ha & Hb) & Hy & (u & w & H1 & H2 & H3))].
      + exists u, w. split; auto. eapply comp_mutual; eauto.
      + exists u, w. split; auto. eapply reach_trans; [apply (comp_mutual G _ _ CP v a k H Ha)|]. eapply reach_step; eauto.
        eapply reach_trans; [apply (comp_mutual G _ _ CP b y k' Hb Hy)|auto].
  Qed.

  Lemma scc_acyclic_ok Sc Pr : rows_ok Sc Pr cedge ->
    exists a, scc_acyclic C Sc = Some a /\ length a = num /\ forall v k b, comp v k -> get a k = Some b -> (b = true <-> ~ reaches_cycle v).
  Proof using WF OK.
    intros (L1 & L2 & H1 & _). unfold scc_acyclic. destruct (so_cyclic _ _ OK) as [NC HC].
    match goal with |- context [ofold ?f (s_cyclic C) _] => set (F1 := f) end.
    destruct (ofold_prefix F1 (fun P a => length a = num /\ forall k, k < num -> get a k = Some (negb (memb k P))) (s_cyclic C) (repeat true num)) as (a & E & La & Ha).
    { split; [apply repeat_length|]. intros. now rewrite get_repeat. }
    { intros pre k post a EQ (La & Ha). unfold F1. assert (Lk : k < num).
      { apply HC. rewrite EQ. apply in_or_app; right; now left. }
      destruct (set_some a k false) as (a' & Ea); [lia|]. exists a'. split; auto. split; [now rewrite (set_length _ _ _ _ Ea)|].
      intros j Lj. rewrite (get_set_any _ _ _ _ j Ea). unfold memb. rewrite existsb_app. cbn. destruct (Nat.eqb_spec j k) as [->|N].
      - now rewrite orb_true_r.
      - rewrite Ha by auto. now rewrite !orb_false_r. }
    rewrite E. cbn [obind]. clear E.
    assert (CD : forall k, k < num -> get a k = Some true <-> ~ cyclic G (s_of C) k).
    { intros k Lk. rewrite Ha by auto. destruct (memb k (s_cyclic C)) eqn:M.
      - apply memb_In in M. apply HC in M. cbn. split; [discriminate|tauto].
      - apply memb_false in M. cbn. rewrite HC in M. split; auto. }
    match goal with |- context [ofold ?f (seq 0 num) _] => set (F2 := f) end.
    set (good k := forall v, comp v k -> ~ reaches_cycle v).
    assert (GK : forall k, k < num -> good k <-> (~ cyclic G (s_of C) k /\ forall k', cedge k k' -> good k')).
    { intros k Lk. destruct (members_nonempty G _ _ CP k Lk) as (v0 & r & EM).
      assert (Hv0 : comp v0 k) by (apply members_in; rewrite EM; now left).
      split.
      - intros Hg. specialize (Hg v0 Hv0). split.
        + intros Q. apply Hg. apply (reaches_cycle_comp v0 k Hv0). auto.
        + intros k' Hk' y Hy Q. apply Hg. apply (reaches_cycle_comp v0 k Hv0). right. eauto.
      - intros [Q1 Q2] v Hv Q. apply (reaches_cycle_comp v k Hv) in Q as [Q|(k' & y & Q3 & Q4 & Q5)]; auto. apply (Q2 k' Q3 y); auto. }
    destruct (ofold_prefix F2 (fun P a' => length a' = num /\ (forall k, In k P -> (get a' k = Some true <-> good k)) /\
       (forall k, k < num -> ~ In k P -> get a' k = get a k)) (seq 0 num) a) as (a' & E & La' & Ha' & _).
    { split; auto. split; [easy|auto]. }
    { intros pre k post a' EQ (La' & Hp & Hn). destruct (seq_prefix _ _ _ _ EQ) as (Ek & Epre & Lk). unfold F2.
      assert (Kn : ~ In k pre). { rewrite Epre. rewrite in_seq. lia. }
      destruct (get_some a' k) as (b & Eb); [lia|]. rewrite Eb. cbn [obind].
      assert (Ea : get a k = Some b). { rewrite <- Eb. symmetry. now apply Hn. }
      destruct b.
      - assert (NCk : ~ cyclic G (s_of C) k) by (now apply CD).
        destruct (get_some Sc k) as (ss & Es); [lia|]. rewrite Es. cbn [obind]. destruct (H1 k ss Es) as [As Is].
        match goal with |- context [ofold ?f ss _] => set (F3 := f) end.
        destruct (ofold_prefix F3 (fun Q a2 => length a2 = num /\ (forall j, j <> k -> get a2 j = get a' j) /\
           (get a2 k = Some true <-> forall j, In j Q -> good j)) ss a') as (a2 & E2 & La2 & Hj & Hk).
        { split; auto. split; auto. split; [easy|auto]. }
        { intros Q j post' a2 EQ' (La2 & Hj & Hk). unfold F3. destruct (get_some a2 k) as (x & Ex); [lia|]. rewrite Ex. cbn [obind].
          assert (Cj : cedge k j). { apply Is. rewrite EQ'. apply in_or_app; right; now left. }
          destruct (cedge_lt _ _ Cj) as (_ & Lj & Ljk).
          assert (Pj : In j pre) by (rewrite Epre; apply in_seq; lia).
          destruct x.
          - destruct (get_some a2 j) as (y & Ey); [lia|]. rewrite Ey. cbn [obind]. destruct (set_some a2 k y) as (a3 & E3); [lia|]. exists a3. split; auto.
            split; [rewrite (set_length _ _ _ _ E3); auto|]. split.
            + intros i Ni. rewrite (get_set_any _ _ _ _ i E3). apply Nat.eqb_neq in Ni as Ni'. rewrite Ni'. auto.
            + rewrite (get_set_any _ _ _ _ k E3), Nat.eqb_refl.
              assert (Gj : get a' j = Some true <-> good j) by (now apply Hp). rewrite <- (Hj j) in Gj by lia. rewrite Ey in Gj. rewrite Gj.
              split.
              * intros Hg i Hi. apply in_app_or in Hi as [Hi|[<-|[]]]; auto. now apply Hk.
              * intros Hg. apply Hg. apply in_or_app; right; now left.
          - exists a2. split; auto. split; auto. split; auto. rewrite Ex. split; [discriminate|]. intros Hg. exfalso.
            assert (get a2 k = Some true); [|congruence]. apply Hk. intros i Hi. apply Hg. apply in_or_app; auto. }
        rewrite E2. exists a2. split; auto. split; auto. split.
        + intros i Hi. apply in_app_or in Hi as [Hi|[<-|[]]].
          * rewrite Hj; auto. intros ->. auto.
          * rewrite Hk. rewrite GK by auto. split; [|intros [_ Q]; intros j Hj'; apply Q; now apply Is].
            intros Q. split; auto. intros j Hj'. apply Q. now apply Is.
        + intros i Li Ni. rewrite in_app_iff in Ni. rewrite Hj; [apply Hn; tauto|]. intros ->. apply Ni. right; now left.
      - exists a'. split; auto. split; auto. split.
        + intros i Hi. apply in_app_or in Hi as [Hi|[<-|[]]]; auto. rewrite Eb. split; [discriminate|]. intros Hg. exfalso.
          apply GK in Hg as [Hg _]; auto. apply CD in Hg; auto. congruence.
        + intros i Li Ni. apply Hn; auto. intros Q. apply Ni. apply in_or_app; auto. }
    exists a'. split; auto. split; auto. intros v k b Hv Hb.
    assert (Lk := proj2 (comp_lt G _ _ CP _ _ Hv)).
    assert (Q : get a' k = Some true <-> good k) by (apply Ha'; apply in_seq; lia). rewrite Hb in Q. split.
    - intros ->. now apply Q.
    - intros Hc. assert (Some b = Some true); [|congruence]. apply Q. intros u Hu (x & y & R1 & R2 & R3). apply Hc.
      exists x, y. split; auto. eapply reach_trans; [apply (comp_mutual G _ _ CP v u k Hv Hu)|auto].
  Qed.

  (** *** Reachability *)
  Variable last : nat.
  Variables Sc Pr : list (list nat).
  Hypothesis RO : rows_ok Sc Pr cedge.

  Definition entry_ok (R : list (option (list nat))) v :=
    exists r, get R v = Some (Some r) /\ asc r /\ forall t, In t r <-> t < last /\ reach v t.

  Lemma reach_component_ok R scc : length R = length G -> scc < num -> (forall k v, cedge scc k -> comp v k -> entry_ok R v) ->
    exists R', reach_component C Sc last R scc = Some R' /\ length R' = length G /\ (forall v, comp v scc -> entry_ok R' v) /\
      forall v, ~ comp v scc -> get R' v = get R v.
  Proof using WF OK RO.
    intros LR Lk HS. unfold reach_component. destruct (so_tasks _ _ OK) as [LT HT]. rewrite (HT scc Lk). cbn [obind].
    destruct RO as (L1 & L2 & H1 & _). destruct (get_some Sc scc) as (ss & Es); [lia|]. rewrite Es. cbn [obind].
    destruct (H1 scc ss Es) as [As Is]. fold (ins_all last (members (s_of C) scc) []).
    match goal with |- context [ofold ?f ss _] => set (F := f) end.
    destruct (ofold_prefix F (fun P acc => asc acc /\ forall t, In t acc <-> t < last /\ (comp t scc \/ exists k y, In k P /\ comp y k /\ reach y t)) ss
      (ins_all last (members (s_of C) scc) [])) as (all & E & Aa & Ha).
    { split; [apply ins_all_asc; constructor|]. intros t. rewrite ins_all_in, members_in. cbn. split; [tauto|].
      intros (Q1 & [Q2|(k & y & [] & _)]); auto. }
    { intros pre k post acc EQ (A & H). unfold F. assert (Ck : cedge scc k). { apply Is. rewrite EQ. apply in_or_app; right; now left. }
      destruct (cedge_lt _ _ Ck) as (_ & Lk' & _). rewrite (HT k Lk'). cbn [obind].
      destruct (members_nonempty G _ _ CP k Lk') as (u & ms & EM). rewrite EM. change (get (u :: ms) 0) with (Some u); cbn [obind].
      assert (Hu : comp u k) by (apply members_in; rewrite EM; now left).
      destruct (HS k u Ck Hu) as (r & Er & Ar & Hr). rewrite Er. cbn [obind].
      eexists. split; [reflexivity|]. fold (ins_all last r acc). split; [now apply ins_all_asc|].
      intros t. rewrite ins_all_in, H. split.
      - intros [(Q1 & [Q2|(k' & y & Q2 & Q3 & Q4)])|[Q1 Q2]].
        + auto.
        + split; auto. right. exists k', y. rewrite in_app_iff. auto.
        + split; auto. right. exists k, u. rewrite in_app_iff. cbn. apply Hr in Q1 as [_ Q1]. auto.
      - intros (Q1 & [Q2|(k' & y & Q2 & Q3 & Q4)]); auto. apply in_app_or in Q2 as [Q2|[<-|[]]].
        + left. split; auto. right. exists k', y. auto.
        + right. split; auto. apply Hr. split; auto. eapply reach_trans; [apply (comp_mutual G _ _ CP u y k Hu Q3)|auto]. }
    rewrite E. cbn [obind].
    assert (EX : forall v, comp v scc -> forall t, In t all <-> t < last /\ reach v t).
    { intros v Hv t. rewrite Ha. split; intros [Q1 Q2]; (split; auto).
      - destruct Q2 as [Q2|(k & y & Q2 & Q3 & Q4)]; [apply (comp_mutual G _ _ CP v t scc Hv Q2)|].
        apply Is in Q2 as (N & a & b & Q5 & Q6 & Q7). eapply reach_trans; [apply (comp_mutual G _ _ CP v a scc Hv Q6)|].
        eapply reach_step; eauto. eapply reach_trans; [apply (comp_mutual G _ _ CP b y k Q7 Q3)|auto].
      - destruct (reach_comp v t scc Hv Q2) as [Q3|(k' & y & Q3 & Q4 & Q5)]; auto. right. exists k', y. split; [now apply Is|auto]. }
    match goal with |- context [ofold ?f _ _] => set (F2 := f) end.
    destruct (ofold_prefix F2 (fun P R' => length R' = length G /\ (forall v, In v P -> get R' v = Some (Some all)) /\ forall v, ~ In v P -> get R' v = get R v)
       (members (s_of C) scc) R) as (R' & E2 & LR' & Q1 & Q2).
    { split; auto. split; [easy|auto]. }
    { intros pre v post R' EQ (LR' & Q1 & Q2). unfold F2. assert (Hv : comp v scc). { apply members_in. rewrite EQ. apply in_or_app; right; now left. }
      assert (Lv := proj1 (comp_lt G _ _ CP _ _ Hv)). destruct (set_some R' v (Some all)) as (R2 & E2); [lia|]. exists R2. split; auto.
      split; [rewrite (set_length _ _ _ _ E2); auto|]. split; intros w Hw; rewrite (get_set_any _ _ _ _ w E2); destruct (Nat.eqb_spec w v) as [->|N]; auto.
      - apply Q1. apply in_app_or in Hw as [Hw|[Hw|[]]]; auto. congruence.
      - exfalso. apply Hw. apply in_or_app; right; now left.
      - apply Q2. intros Q. apply Hw. apply in_or_app; auto. }
    exists R'. split; auto. split; auto. split.
    - intros v Hv. exists all. split; [apply Q1; now apply members_in|]. split; auto.
    - intros v Hv. apply Q2. now rewrite members_in.
  Qed.

  Definition left (D : list nat) (r : list nat) := length (filter (fun j => negb (memb j D)) r).

  Lemma left_c D a r : left D (a :: r) = (if memb a D then 0 else 1) + left D r.
  Proof using. unfold left. cbn [filter]. destruct (memb a D); reflexivity. Qed.
  Lemma left_cons D k r : NoDup r -> ~ In k D -> left D r = left (k :: D) r + if memb k r then 1 else 0.
  Proof using.
    intros ND Nk. induction ND as [|a r Na ND IH]; [reflexivity|]. rewrite !left_c, IH.
    change (memb a (k :: D)) with (Nat.eqb a k || memb a D)%bool. change (memb k (a :: r)) with (Nat.eqb k a || memb k r)%bool.
    rewrite (Nat.eqb_sym k a). destruct (Nat.eqb_spec a k) as [->|N]; cbn [orb].
    - apply memb_false in Nk, Na. rewrite Nk, Na. lia.
    - lia.
  Qed.
  Lemma left_zero D r : left D r = 0 <-> incl r D.
  Proof using.
    unfold left. split.
    - intros H x Hx. apply length_zero_iff_nil in H. destruct (memb x D) eqn:M; [now apply memb_In|]. exfalso.
      assert (Q : In x (filter (fun j => negb (memb j D)) r)) by (apply filter_In; rewrite M; auto). rewrite H in Q. easy.
    - intros H. apply length_zero_iff_nil. destruct (filter _ r) as [|x l] eqn:E; auto. exfalso.
      assert (Q : In x (filter (fun j => negb (memb j D)) r)) by (rewrite E; now left). apply filter_In in Q as [Q1 Q2].
      apply H in Q1. apply memb_In in Q1. rewrite Q1 in Q2. discriminate.
  Qed.

  Record RInv (D ready stack : list nat) (R : list (option (list nat))) : Prop := {
    ri_nd : NoDup (D ++ stack);
    ri_lt : forall k, In k (D ++ stack) -> k < num;
    ri_len : length ready = num;
    ri_ready : forall k r, get Sc k = Some r -> get ready k = Some (left D r);
    ri_stack : forall k r, ~ In k D -> get Sc k = Some r -> (In k stack <-> left D r = 0);
    ri_closed : forall k k', In k D -> cedge k k' -> In k' D;
    ri_lenR : length R = length G;
    ri_done : forall k v, In k D -> comp v k -> entry_ok R v }.

  Lemma row_nodup k r : get Sc k = Some r -> NoDup r.
  Proof using RO. destruct RO as (_ & _ & H & _). intros E. destruct (H k r E). now apply asc_nodup. Qed.
  Lemma row_in k r t : get Sc k = Some r -> In t r <-> cedge k t.
  Proof using RO. destruct RO as (_ & _ & H & _). intros E. destruct (H k r E). auto. Qed.

  Lemma reach_components_ok : forall fuel D ready stack R, RInv D ready stack R -> num < fuel + length D ->
    exists R', reach_components fuel C Sc Pr last ready stack R = Some R' /\ length R' = length G /\ forall v, v < length G -> entry_ok R' v.
  Proof using WF OK RO.
    destruct RO as (L1 & L2 & H1 & H2).
    induction fuel as [|fuel IH]; intros D ready stack R I HF.
    { exfalso. assert (length D <= num); [|lia]. rewrite <- (seq_length num 0). apply NoDup_incl_length.
      - assert (Q := ri_nd _ _ _ _ I). now apply nodup_app_iff in Q as [Q _].
      - intros x Hx. apply in_seq. assert (x < num); [|lia]. apply (ri_lt _ _ _ _ I). apply in_or_app; auto. }
    cbn [reach_components]. destruct stack as [|k stack].
    - exists R. split; auto. split; [apply I|]. intros v Lv. destruct (comp_ex G _ _ CP v Lv) as (k & Hk).
      assert (AD : forall m k, k < m -> k < num -> In k D).
      { induction m as [|m IHm]; intros j Lj Ln; [lia|]. destruct (In_dec Nat.eq_dec j D) as [|Nj]; auto. exfalso.
        destruct (get_some Sc j) as (r & Er); [lia|]. assert (Q : In j []); [|easy]. apply (ri_stack _ _ _ _ I j r Nj Er). apply left_zero.
        intros t Ht. apply (row_in _ _ _ Er) in Ht. destruct (cedge_lt _ _ Ht) as (_ & Q1 & Q2). apply IHm; lia. }
      apply (ri_done _ _ _ _ I k v); auto. assert (Lk := proj2 (comp_lt G _ _ CP _ _ Hk)). now apply (AD num).
    - assert (Lk : k < num). { apply (ri_lt _ _ _ _ I). apply in_or_app; right; now left. }
      assert (ND := ri_nd _ _ _ _ I). assert (Nk : ~ In k D).
      { apply nodup_app_iff in ND as (_ & _ & Q). intros Q2. apply (Q k); auto. now left. }
      destruct (get_some Sc k) as (sk & Esk); [lia|].
      assert (Sk : incl sk D). { apply left_zero. apply (ri_stack _ _ _ _ I k sk Nk Esk). now left. }
      destruct (reach_component_ok R k (ri_lenR _ _ _ _ I) Lk) as (R1 & E1 & LR1 & HR1 & HR2).
      { intros j v Cj Hv. apply (ri_done _ _ _ _ I j v); auto. apply Sk. now apply (row_in _ _ _ Esk). }
      rewrite E1. cbn [obind]. destruct (get_some Pr k) as (ps & Eps); [lia|]. rewrite Eps. cbn [obind].
      destruct (H2 k ps Eps) as [Aps Ips].
      assert (PI : forall p r, In p ps -> get Sc p = Some r -> left D r = S (left (k :: D) r) /\ ~ In p D /\ p <> k /\ ~ In p (k :: stack)).
      { intros p r Hp Er. apply Ips in Hp. assert (Kr : In k r) by (now apply (row_in _ _ _ Er)).
        assert (Lf := left_cons D k r (row_nodup _ _ Er) Nk). assert (Kr' := Kr). apply memb_In in Kr'. rewrite Kr' in Lf.
        assert (Np : ~ In p D). { intros Q. apply Nk. eapply (ri_closed _ _ _ _ I); eauto. }
        split; [lia|]. split; auto. split; [apply cedge_lt in Hp; lia|]. intros Q. apply (ri_stack _ _ _ _ I p r Np Er) in Q. lia. }
      match goal with |- context [ofold ?f ps _] => set (F := f) end.
      destruct (ofold_prefix F (fun P '(rd, stk) => length rd = num /\
         (forall j r, get Sc j = Some r -> get rd j = Some (if memb j P then left (k :: D) r else left D r)) /\
         NoDup stk /\ (forall j, In j stk <-> In j stack \/ (In j P /\ exists r, get Sc j = Some r /\ left (k :: D) r = 0))) ps (ready, stack)) as ([rd stk] & E2 & LRd & Hrd & NDs & Hs).
      { split; [apply I|]. split; [cbn; apply (ri_ready _ _ _ _ I)|]. split.
        - apply nodup_app_iff in ND as (_ & Q & _). now inversion Q.
        - intros j. cbn. tauto. }
      { intros P p post [rd stk] EQ (LRd & Hrd & NDs & Hs).
        assert (Hp : In p ps) by (rewrite EQ; apply in_or_app; right; now left).
        assert (Lp : p < num) by (apply Ips in Hp; apply cedge_lt in Hp; lia).
        destruct (get_some Sc p) as (r & Er); [lia|]. destruct (PI p r Hp Er) as (Q1 & Q2 & Q3 & Q4).
        assert (Np : ~ In p P). { assert (NDp := asc_nodup _ Aps). rewrite EQ in NDp. apply NoDup_remove_2 in NDp. intros Q. apply NDp. apply in_or_app; auto. }
        unfold F. rewrite (Hrd p r Er). apply memb_false in Np as Np'. rewrite Np'. cbn [obind]. rewrite Q1.
        destruct (set_some rd p (left (k :: D) r)) as (rd' & Erd); [lia|]. rewrite Erd. cbn [obind]. eexists. split; [reflexivity|].
        split; [rewrite (set_length _ _ _ _ Erd); auto|]. split; [|].
        - intros j rj Ej. rewrite (get_set_any _ _ _ _ j Erd). unfold memb. rewrite existsb_app. cbn. destruct (Nat.eqb_spec j p) as [->|N].
          + rewrite orb_true_r. congruence.
          + rewrite !orb_false_r. apply Hrd; auto.
        - assert (Ns : ~ In p stk). { rewrite Hs. intros [Q|[Q _]]; auto. apply Q4. now right. }
          destruct (Nat.eqb_spec (left (k :: D) r) 0) as [E0|N0].
          + split; [constructor; auto|]. intros j. cbn [In]. rewrite Hs, in_app_iff. cbn. split.
            * intros [<-|[Q|[Q Q']]]; auto. right. split; auto. exists r. auto.
            * intros [Q|[[Q|[Q|[]]] Q']]; auto.
          + split; auto. intros j. rewrite Hs, in_app_iff. cbn. split; [tauto|]. intros [Q|[[Q|[Q|[]]] Q']]; auto. subst j. exfalso.
            destruct Q' as (r' & Er' & Z). assert (r' = r) by congruence. subst. auto. }
      rewrite E2. cbn [obind]. apply IH with (D := k :: D).
      + split.
        * apply nodup_app_iff. apply nodup_app_iff in ND as (N1 & N2 & N3). split; [constructor; auto|]. split; auto.
          intros x [<-|Hx] Hy; apply Hs in Hy as [Hy|(Hy & r & Er & _)].
          -- inversion N2; auto.
          -- destruct (PI _ r Hy Er) as (_ & _ & Q & _). auto.
          -- apply (N3 x); auto. now right.
          -- destruct (PI _ r Hy Er) as (_ & Q & _). auto.
        * intros x Hx. apply in_app_or in Hx as [[<-|Hx]|Hx]; auto.
          -- apply (ri_lt _ _ _ _ I). apply in_or_app; auto.
          -- apply Hs in Hx as [Hx|(Hx & r & Er & _)]; [apply (ri_lt _ _ _ _ I); apply in_or_app; right; now right|]. apply get_lt in Er. lia.
        * auto.
        * intros j r Er. rewrite (Hrd j r Er). destruct (memb j ps) eqn:M; auto. f_equal.
          rewrite (left_cons D k r (row_nodup _ _ Er) Nk). apply memb_false in M. destruct (memb k r) eqn:Mr; [|lia]. exfalso. apply M.
          apply Ips. apply memb_In in Mr. now apply (row_in _ _ _ Er).
        * intros j r Nj Er. rewrite Hs. assert (Nj' : ~ In j D) by (intros Q; apply Nj; now right).
          assert (j <> k) by (intros ->; apply Nj; now left).
          assert (Q := ri_stack _ _ _ _ I j r Nj' Er). destruct (memb j ps) eqn:M.
          -- apply memb_In in M. destruct (PI j r M Er) as (Q1 & _ & _ & Q4). split.
             ++ intros [Q5|(_ & r' & Er' & Z)]; [exfalso; apply Q4; now right|]. congruence.
             ++ intros Z. right. split; auto. exists r. auto.
          -- apply memb_false in M. assert (Lf := left_cons D k r (row_nodup _ _ Er) Nk).
             assert (Kr : memb k r = false). { apply memb_false. intros Q5. apply M. apply Ips. now apply (row_in _ _ _ Er). }
             rewrite Kr in Lf. replace (left (k :: D) r) with (left D r) by lia. rewrite <- Q. cbn. split; [|intros [->|Q5]; [congruence|auto]].
             intros [Q5|[Q5 _]]; [auto|contradiction].
        * intros a b [<-|Ha] Hb.
          -- right. apply Sk. now apply (row_in _ _ _ Esk).
          -- right. eapply (ri_closed _ _ _ _ I); eauto.
        * auto.
        * intros j v [<-|Hj] Hv; auto. destruct (ri_done _ _ _ _ I j v Hj Hv) as (r & Er & Q). exists r. split; auto.
          rewrite HR2; auto. intros Q2. apply Nk. rewrite (comp_fun _ _ _ _ Q2 Hv). auto.
      + cbn. lia.
  Qed.
End Graph.

Theorem reach_table_ok G C last : graph_wf G -> sccs_ok G C ->
  exists R, reach_table G C last = Some R /\ length R = length G /\
    forall v, v < length G -> exists r, get R v = Some (Some r) /\ asc r /\ forall t, In t r <-> t < last /\ reach G v t.
Proof.
  intros WF OK. unfold reach_table. destruct (scc_graph_ok G WF C OK) as (Sc & Pr & -> & RO). cbn [obind].
  assert (RO' := RO). destruct RO' as (L1 & L2 & H1 & H2).
  assert (RDY : forall k r, get Sc k = Some r -> nth k (map (@length nat) Sc) 1 = length r).
  { intros k r E. unfold get in E. apply nth_error_nth. now apply map_nth_error. }
  assert (L0 : forall r, left [] r = length r). { intros r. unfold left. cbn. f_equal. induction r; cbn; auto. now f_equal. }
  apply (reach_components_ok G WF C OK last Sc Pr RO) with (D := []); [|cbn; lia]. split.
  - cbn. apply NoDup_rev, NoDup_filter, seq_NoDup.
  - intros k Hk. cbn in Hk. rewrite <- in_rev in Hk. apply filter_In in Hk as [Hk _]. apply in_seq in Hk. lia.
  - now rewrite map_length.
  - intros k r E. unfold get in *. rewrite (map_nth_error (@length nat) k Sc E). now rewrite L0.
  - intros k r _ E. rewrite <- in_rev, filter_In, in_seq, L0, (RDY k r E), Nat.eqb_eq. apply get_lt in E. split; [tauto|]. intros; split; auto. lia.
  - easy.
  - apply repeat_length.
  - easy.
Qed.
