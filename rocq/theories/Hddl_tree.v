(** The rows printed for a run of the stack machine form a decomposition tree of the printed actions. *)
From Coq Require Import List Arith Lia Relations Bool.
Import ListNotations.
From Verif Require Import Base Htn_problem Htn_spec To_spec Tree_spec Sas_model Sas_spec Hddl_model Hddl_proof.

Lemma combine_fst (l : list nat) : forall b, map fst (combine (seq b (length l)) l) = seq b (length l).
Proof. induction l as [|y l IH]; intros b; cbn; [reflexivity|]. f_equal. apply IH. Qed.

Section Tree.
  Variables (P : problem) (ls : list oname) (rs : list row).
  Hypotheses (WF : wf_problem P) (LO : listed_in_order P) (R : srun P [p_init P] ls).
  Let pmax := length (printed ls).
  Let acts := combine (seq 0 pmax) (printed ls).
  Hypothesis RA : forall r, In r rs -> exists o, rowat P pmax 0 0 ls o r.
  Hypothesis RB : forall o i j subs prims, nth_error ls o = Some (NMeth i j subs prims) -> exists r, In r rs /\ rowat P pmax 0 0 ls o r.
  Hypothesis RC : map rw_id rs = map (fun x => x + pmax) (seq 0 (nmeth ls)).
  Notation pos := (posn 0 ls).
  Notation idl := (idn pmax 0 0 ls).

  Lemma firstn_le {A} (f : list oname -> list A) (Hf : forall a b, f (a ++ b) = f a ++ f b) a b : a <= b -> length (f (firstn a ls)) <= length (f (firstn b ls)).
  Proof. intros L. rewrite <- (firstn_skipn a (firstn b ls)), firstn_firstn, Nat.min_l, Hf, app_length by lia. lia. Qed.
  Lemma firstn_S q n : nth_error ls q = Some n -> firstn (S q) ls = firstn q ls ++ [n].
  Proof. clear. revert q. induction ls as [|a l IH]; intros [|q] E; try discriminate; [injection E as <-; reflexivity|]. cbn [firstn app]. f_equal. now apply IH. Qed.
  Lemma pos_lt q n q' : nth_error ls q = Some n -> q < q' -> pos q + width n <= pos q'.
  Proof.
    intros E L. unfold posn. cbn [Nat.add]. assert (X := firstn_le printed printed_app (S q) q' L). rewrite (firstn_S q n E), printed_app, app_length, printed_width in X. exact X.
  Qed.
  Lemma pos_max q n : nth_error ls q = Some n -> pos q + width n <= pmax.
  Proof.
    intros E. assert (L : q < length ls) by (apply nth_error_Some; congruence). assert (X := pos_lt q n (length ls) E L). unfold posn in X at 2. rewrite firstn_all in X. exact X.
  Qed.
  Lemma nmeth_le a b : a <= b -> nmeth (firstn a ls) <= nmeth (firstn b ls).
  Proof. intros L. rewrite <- (firstn_skipn a (firstn b ls)), firstn_firstn, Nat.min_l, nmeth_app by lia. lia. Qed.
  Lemma nmeth_lt q n q' : nth_error ls q = Some n -> q < q' -> nmeth (firstn q ls) + meth n <= nmeth (firstn q' ls).
  Proof. intros E L. assert (X := nmeth_le (S q) q' L). rewrite (firstn_S q n E), nmeth_app in X. unfold nmeth in X at 2. cbn in X. lia. Qed.

  Definition main (q id : nat) : Prop := q < length ls /\ idl q = id.
  Definition merged (q x id : nat) : Prop := exists i j subs prims, nth_error ls q = Some (NMeth i j subs prims) /\ x < length prims /\ id = pos q + x.

  Lemma main_cases q id : main q id -> (exists i j, nth_error ls q = Some (NPrim i j) /\ id = pos q) \/ (exists i j s p, nth_error ls q = Some (NMeth i j s p) /\ id = nmeth (firstn q ls) + pmax).
  Proof. intros [L <-]. unfold idn. destruct (nth_error ls q) as [[i j|i j s p]|] eqn:E; [left; eauto|right; eauto 8|apply nth_error_None in E; lia]. Qed.

  Lemma main_inj q q' id : main q id -> main q' id -> q = q'.
  Proof.
    intros M M'. destruct (main_cases _ _ M) as [(i & j & E & A)|(i & j & s & p & E & A)], (main_cases _ _ M') as [(i' & j' & E' & A')|(i' & j' & s' & p' & E' & A')].
    - destruct (lt_eq_lt_dec q q') as [[L|]|L]; auto; [assert (X := pos_lt _ _ _ E L)|assert (X := pos_lt _ _ _ E' L)]; cbn [width meth head] in X; lia.
    - assert (X := pos_max _ _ E). cbn [width meth head] in X. lia.
    - assert (X := pos_max _ _ E'). cbn [width meth head] in X. lia.
    - destruct (lt_eq_lt_dec q q') as [[L|]|L]; auto; [assert (X := nmeth_lt _ _ _ E L)|assert (X := nmeth_lt _ _ _ E' L)]; cbn [width meth head] in X; lia.
  Qed.
  Lemma main_merged q q' x id : main q id -> merged q' x id -> False.
  Proof.
    intros M (i' & j' & s' & p' & E' & Lx & A'). assert (Y := pos_max _ _ E'). cbn [width meth head] in Y. destruct (main_cases _ _ M) as [(i & j & E & A)|(i & j & s & p & E & A)]; [|lia].
    destruct (lt_eq_lt_dec q q') as [[L|L]|L]; [assert (X := pos_lt _ _ _ E L); cbn [width meth head] in X; lia|congruence|assert (X := pos_lt _ _ _ E' L); cbn [width meth head] in X; lia].
  Qed.
  Lemma merged_inj q q' x x' id : merged q x id -> merged q' x' id -> q = q' /\ x = x'.
  Proof.
    intros (i & j & s & p & E & Lx & A) (i' & j' & s' & p' & E' & Lx' & A'). assert (q = q'); [|subst; split; auto; lia].
    destruct (lt_eq_lt_dec q q') as [[L|]|L]; auto; [assert (X := pos_lt _ _ _ E L)|assert (X := pos_lt _ _ _ E' L)]; cbn [width meth head] in X; lia.
  Qed.

  (** Printed actions belong to lines. *)
  Lemma act_line a t : nth_error (printed ls) a = Some t -> exists q n x, nth_error ls q = Some n /\ nth_error (printed [n]) x = Some t /\ a = pos q + x.
  Proof.
    clear. unfold posn. revert a. induction ls as [|n l IH]; intros a E; [destruct a; discriminate|]. rewrite printed_cons in E. destruct (le_lt_dec (length (printed [n])) a) as [L|L].
    - rewrite nth_error_app2 in E by lia. destruct (IH _ E) as (q & n' & x & A & B & C). exists (S q), n', x. split; auto. split; auto. cbn [firstn]. rewrite printed_cons, app_length. lia.
    - rewrite nth_error_app1 in E by lia. exists 0, n, a. auto.
  Qed.
  Lemma line_act q n x t : nth_error ls q = Some n -> nth_error (printed [n]) x = Some t -> nth_error (printed ls) (pos q + x) = Some t.
  Proof.
    clear. unfold posn. revert q. induction ls as [|m l IH]; intros q E Ex; [destruct q; discriminate|]. destruct q as [|q]; cbn [nth_error] in E.
    - injection E as <-. rewrite printed_cons. change (nth_error (printed [m] ++ printed l) x = Some t). rewrite nth_error_app1; auto. apply nth_error_Some. congruence.
    - cbn [firstn]. rewrite printed_cons, (printed_cons m (firstn q l)), app_length, nth_error_app2 by lia. rewrite <- (IH q E Ex). f_equal. lia.
  Qed.
  Lemma in_acts a t : In (a, t) acts <-> nth_error (printed ls) a = Some t.
  Proof.
    unfold acts, pmax. assert (X : forall (l : list nat) b a, In (a, t) (combine (seq b (length l)) l) <-> b <= a /\ nth_error l (a - b) = Some t).
    { clear. induction l as [|y l IH]; intros b a; cbn [length seq combine In]; [split; [tauto|intros [_ E]; destruct (a - b); discriminate]|]. rewrite IH. split.
      - intros [[= <- <-]|[L E]]; [rewrite Nat.sub_diag; auto|]. split; [lia|]. replace (a - b) with (S (a - S b)) by lia. exact E.
      - intros [L E]. destruct (Nat.eq_dec a b) as [->|N]; [rewrite Nat.sub_diag in E; injection E as ->; auto|]. right. split; [lia|]. replace (a - b) with (S (a - S b)) in E by lia. exact E. }
    rewrite X, Nat.sub_0_r. split; [tauto|]. split; auto. lia.
  Qed.
  Lemma acts_fst : map fst acts = seq 0 pmax.
  Proof. apply combine_fst. Qed.

  Lemma act_node a t : nth_error (printed ls) a = Some t -> (exists q j, nth_error ls q = Some (NPrim t j) /\ main q a) \/ (exists q x, merged q x a).
  Proof.
    intros E. destruct (act_line a t E) as (q & n & x & Eq & Ex & ->). destruct n as [i j|i j subs prims].
    - left. exists q, j. destruct x as [|x]; [|destruct x; discriminate]. injection Ex as ->. split; auto. split; [apply nth_error_Some; congruence|]. unfold idn. rewrite Eq. cbn. lia.
    - right. exists q, x. exists i, j, subs, prims. split; auto. split; auto. unfold printed in Ex. cbn in Ex. rewrite app_nil_r in Ex. apply nth_error_Some. congruence.
  Qed.
  Lemma line_ok q n : nth_error ls q = Some n -> exists t rest, ok P n t rest.
  Proof. intros E. assert (X := srun_ok P _ _ R). rewrite Forall_forall in X. apply X. eapply nth_error_In; eauto. Qed.

  (** The children of a row, by lines. *)
  Lemma child_cases i c j : child rs i c j -> exists o, main o i /\ (merged o j c \/
    exists i0 j0 subs prims m rest k y, nth_error ls o = Some (NMeth i0 j0 subs prims) /\ nth_error (p_methods P) i0 = Some m /\ m_subs m = prims ++ rest /\ k < length rest /\ j = length prims + (length rest - 1 - k) /\
      kidline P ls o (j0 + k) y (nth (length rest - 1 - k) rest 0) /\ main y c).
  Proof.
    intros (r & I & <- & E). destruct (RA r I) as (o & i0 & j0 & subs & prims & m & rest & Eo & Em & Es & O & E1 & _ & _ & LK & K1 & K2). exists o. assert (Lo : o < length ls) by (apply nth_error_Some; congruence). split; [split; auto|].
    destruct (le_lt_dec (length prims) j) as [L|L].
    - assert (Lj : j < length prims + length rest) by (rewrite <- app_length, <- Es, <- LK; apply nth_error_Some; congruence). right. set (k := length rest - 1 - (j - length prims)). destruct (K2 k) as (y & KL & Ey); [unfold k; lia|].
      replace (length prims + (length rest - 1 - k)) with j in Ey by (unfold k; lia). exists i0, j0, subs, prims, m, rest, k, y. split; auto. split; auto. split; auto. split; [unfold k; lia|]. split; [unfold k; lia|]. split; auto. rewrite Ey in E. injection E as <-.
      split; [|reflexivity]. destruct KL as (_ & (z & ? & Ez & _) & _). apply nth_error_Some. congruence.
    - left. rewrite (K1 j L) in E. injection E as <-. exists i0, j0, subs, prims. auto.
  Qed.

  (** Descendants of a line stay above its head. *)
  Definition under (q z : nat) : Prop := q <= z /\ forall n p y, nth_error ls q = Some n -> q < p <= z -> nth_error ls p = Some y -> head n <= head y.
  Lemma under_refl q : under q q.
  Proof. split; [lia|]. intros. lia. Qed.
  Lemma under_trans a b c nb : nth_error ls b = Some nb -> under a b -> under b c -> under a c.
  Proof.
    intros Eb [L1 H1] [L2 H2]. split; [lia|]. intros n p y En Lp Ey. destruct (le_lt_dec p b) as [L|L]; [eapply H1; eauto; lia|]. assert (X := H2 nb p y Eb ltac:(lia) Ey). destruct (Nat.eq_dec a b) as [->|N]; [rewrite Eb in En; injection En as <-; lia|]. assert (Y := H1 n b nb En ltac:(lia) Eb). lia.
  Qed.
  Lemma kid_under o n y p t : nth_error ls o = Some n -> head n <= p -> kidline P ls o p y t -> under o y.
  Proof. intros E L (A & (z & rest & Ez & Hz & _) & C). split; [lia|]. intros n' q w En Lq Ew. rewrite E in En. injection En as <-. destruct (Nat.eq_dec q y) as [->|N]; [rewrite Ez in Ew; injection Ew as <-; lia|]. assert (X := C q w ltac:(lia) Ew). lia. Qed.

  Lemma below_main q i c : main q i -> below rs i c -> exists z, under q z /\ (main z c \/ exists x, merged z x c).
  Proof.
    intros M B. apply clos_rt_rtn1 in B. induction B as [|c d (j & CH) B IH]; [exists q; split; [apply under_refl|auto]|]. destruct IH as (z & U & [Mz|(x & Mz)]).
    - destruct (child_cases c d j CH) as (o & Mo & CC). assert (o = z) by (eapply main_inj; eauto). subst o. destruct CC as [Mg|(i0 & j0 & subs & prims & m & rest & k & y & Eo & Em & Es & Lk & Ej & KL & My)]; [exists z; split; auto; right; eauto|].
      exists y. split; [|auto]. eapply under_trans; [exact Eo|exact U|]. eapply kid_under; [exact Eo| |exact KL]. cbn. lia.
    - destruct (child_cases c d j CH) as (o & Mo & _). exfalso. eapply main_merged; eauto.
  Qed.
  Lemma below_merged q x i c : merged q x i -> below rs i c -> c = i.
  Proof. intros M B. apply clos_rt_rt1n in B. destruct B as [|c d (j & CH) B]; auto. destruct (child_cases i c j CH) as (o & Mo & _). exfalso. eapply main_merged; eauto. Qed.

  Lemma lt_of_m_lt m j k : In m (p_methods P) -> j < length (m_subs m) -> k < length (m_subs m) -> m_lt m j k -> j < k.
  Proof.
    intros I Lj Lk H. destruct (LO m I) as (_ & _ & HO). assert (AC := wfm_acyclic P m (wf_methods P WF m I)). destruct (lt_eq_lt_dec j k) as [[L| ->]|L]; auto; exfalso; [now apply AC in H|].
    apply (AC j). eapply t_trans; [exact H|]. assert (Y : forall n a b, a < b < n -> exists l1 l2, seq 0 n = l1 ++ a :: l2 /\ In b l2).
    { clear. intros n a b L. exists (seq 0 a), (seq (S a) (n - S a)). split; [|apply in_seq; lia]. replace n with (a + S (n - S a)) at 1 by lia. now rewrite seq_app. }
    destruct (Y (length (m_subs m)) k j) as (l1 & l2 & E & J); [lia|]. exact (HO l1 k l2 j E J).
  Qed.

  (** The acts below line [y] come after those below an earlier sibling. *)
  Lemma sibling o n p1 y1 t1 p2 y2 t2 z : nth_error ls o = Some n -> head n <= p2 -> p2 < p1 -> kidline P ls o p1 y1 t1 -> kidline P ls o p2 y2 t2 -> under y1 z -> z < y2.
  Proof.
    intros E L0 L (A1 & (w1 & r1 & E1 & H1 & _) & C1) (A2 & (w2 & r2 & E2 & H2 & _) & C2) [U1 U2].
    assert (y1 < y2). { destruct (lt_eq_lt_dec y1 y2) as [[Q|Q]|Q]; auto; [subst; rewrite E1 in E2; injection E2 as ->; lia|]. assert (X := C1 y2 w2 ltac:(lia) E2). lia. }
    destruct (le_lt_dec y2 z) as [Q|Q]; auto. assert (X := U2 w1 y2 w2 E1 ltac:(lia) E2). lia.
  Qed.

  Lemma act_under z c a : (main z c \/ exists x, merged z x c) -> c < pmax -> c = a -> exists n x, nth_error ls z = Some n /\ x < width n /\ a = pos z + x.
  Proof.
    intros H L <-. destruct H as [M|(x & i & j & s & p & E & Lx & ->)]; [|exists (NMeth i j s p), x; auto]. destruct (main_cases _ _ M) as [(i & j & E & A)|(i & j & s & p & E & A)]; [|lia]. exists (NPrim i j), 0. split; auto. split; [cbn; lia|]. lia.
  Qed.

  Lemma first_line : exists i j subs prims rest r, ls = NMeth i j subs prims :: r /\ ok P (NMeth i j subs prims) (p_init P) rest /\ j = 0.
  Proof.
    inversion R as [|n t rest k0 r O H R' E1 E2]; subst. assert (NP := wf_init P WF). destruct n as [i j|i j subs prims].
    - inversion O; subst. unfold primitive in *. congruence.
    - exists i, j, subs, prims, rest, r. split; auto.
  Qed.

  Lemma parent_line q i : main q i -> q <> 0 -> exists o c j, o < q /\ main o c /\ child rs c i j.
  Proof.
    intros M N. destruct M as [Lq Eq]. destruct (nth_error ls q) as [n|] eqn:En; [|apply nth_error_None in En; lia]. destruct (origin P _ _ R q n En) as [[A B]|(o & y & t & rest & Lo & Eo & O & D & F)].
    - destruct first_line as (i0 & j0 & subs & prims & rest & r & E & _ & ->). assert (X := B 0 (NMeth i0 0 subs prims) ltac:(lia)). rewrite E in X. specialize (X eq_refl). cbn [width meth head] in X. lia.
    - destruct y as [i0 j0|i0 j0 subs prims]; [inversion O; subst; cbn in D; lia|]. destruct (RB o i0 j0 subs prims Eo) as (r & I & i1 & j1 & s1 & p1 & m & rest1 & Eo1 & Em & Es & O1 & E1 & _ & _ & LK & K1 & K2).
      rewrite Eo in Eo1. injection Eo1 as <- <- <- <-. destruct (ok_fun P _ _ _ _ _ O O1) as [-> <-]. cbn [head] in D. destruct (K2 (head n - j0)) as (c & (A1 & (z & rz & Ez & Hz & _) & C1) & Ec); [lia|]. replace (j0 + (head n - j0)) with (head n) in * by lia.
      assert (c = q). { destruct (lt_eq_lt_dec c q) as [[Q|Q]|Q]; auto; [assert (X := F c z ltac:(lia) Ez)|assert (X := C1 q n ltac:(lia) En)]; lia. } subst c.
      exists o, (idl o), (length prims + (length rest - 1 - (head n - j0))). split; auto. split; [split; auto; apply nth_error_Some; congruence|]. exists r. split; auto. split; auto. now rewrite <- Eq.
  Qed.
  Lemma parent_merged q x i : merged q x i -> exists c, main q c /\ child rs c i x.
  Proof.
    intros (i0 & j0 & subs & prims & Eo & Lx & ->). destruct (RB q i0 j0 subs prims Eo) as (r & I & i1 & j1 & s1 & p1 & m & rest1 & Eo1 & Em & Es & O1 & E1 & _ & _ & LK & K1 & K2). rewrite Eo in Eo1. injection Eo1 as <- <- <- <-.
    exists (idl q). split; [split; auto; apply nth_error_Some; congruence|]. exists r. split; auto.
  Qed.

  Lemma id_node i : In i (ids rs acts) -> (exists q, main q i) \/ (exists q x, merged q x i).
  Proof.
    unfold ids. intros I. apply in_app_or in I as [I|I].
    - apply in_map_iff in I as (r & <- & I). destruct (RA r I) as (o & i0 & j0 & subs & prims & m & rest & Eo & _ & _ & _ & E1 & _). left. exists o. split; auto. apply nth_error_Some. congruence.
    - apply in_map_iff in I as ([a t] & <- & I). apply in_acts in I. destruct (act_node a t I) as [(q & j & _ & M)|M]; eauto.
  Qed.

  Lemma root_main : main 0 pmax.
  Proof. destruct first_line as (i & j & subs & prims & rest & r & E & _). split; [rewrite E; cbn; lia|]. unfold idn. rewrite E at 1. cbn [nth_error num]. reflexivity. Qed.

  Lemma below_line q : forall i, main q i -> below rs pmax i.
  Proof.
    induction q as [q IH] using lt_wf_ind. intros i M. destruct (Nat.eq_dec q 0) as [->|N].
    - destruct M as [_ <-]. destruct root_main as [_ E]. rewrite E. apply rt_refl.
    - destruct (parent_line q i M N) as (o & c & j & Lo & Mo & CH). eapply rt_trans; [apply (IH o Lo c Mo)|]. apply rt_step. eauto.
  Qed.

  Theorem tree_valid : tree_ok P pmax rs acts.
  Proof.
    split.
    - unfold ids. rewrite RC, acts_fst. assert (X : NoDup (map (fun x => x + pmax) (seq 0 (nmeth ls)) ++ seq 0 pmax)); auto. apply nodup_app_iff. split; [|split; [apply seq_NoDup|]].
      + apply FinFun.Injective_map_NoDup; [|apply seq_NoDup]. intros x y H. lia.
      + intros x I J. apply in_map_iff in I as (y & <- & _). apply in_seq in J. lia.
    - intros i t I. apply in_acts in I. destruct (act_line i t I) as (q & n & x & Eq & Ex & _). destruct (line_ok q n Eq) as (t' & rest & O). destruct O as [a j Q|a j subs prims m rest Em Es PR RR SB].
      + destruct x as [|x]; [|destruct x; discriminate]. injection Ex as <-. exact Q.
      + apply PR. unfold printed in Ex. cbn in Ex. rewrite app_nil_r in Ex. eapply nth_error_In; eauto.
    - destruct first_line as (i & j & subs & prims & rest & r & E & O & _). assert (E0 : nth_error ls 0 = Some (NMeth i j subs prims)) by (rewrite E; reflexivity). destruct (RB 0 _ _ _ _ E0) as (r0 & I & i1 & j1 & s1 & p1 & m & rest1 & Eo1 & Em & Es & O1 & E1 & E2 & _). exists r0. split; auto.
      rewrite E0 in Eo1. injection Eo1 as <- <- <- <-. destruct (ok_fun P _ _ _ _ _ O O1) as [Q _]. destruct root_main as [_ M]. split; congruence.
    - intros r I. destruct (RA r I) as (o & i0 & j0 & subs & prims & m & rest & Eo & Em & Es & O & E1 & E2 & E3 & LK & K1 & K2). exists m. split; [congruence|]. split; auto. split; auto. intros j c E. destruct (le_lt_dec (length prims) j) as [L|L].
      + assert (Lj : j < length prims + length rest) by (rewrite <- app_length, <- Es, <- LK; apply nth_error_Some; congruence). destruct (K2 (length rest - 1 - (j - length prims))) as (y & (_ & (z & rz & Ez & _ & Oz) & _) & Ey); [lia|].
        replace (length rest - 1 - (length rest - 1 - (j - length prims))) with (j - length prims) in * by lia. replace (length prims + (j - length prims)) with j in Ey by lia. rewrite E in Ey. injection Ey as ->. exists (nth (j - length prims) rest 0).
        split; [rewrite Es, nth_error_app2 by lia; apply nth_error_nth'; lia|]. set (t := nth (j - length prims) rest 0) in *. destruct z as [a h|a h s p].
        * left. apply in_acts. inversion Oz; subst. unfold idn. rewrite Ez. cbn [num]. rewrite <- (Nat.add_0_r (pos y)). eapply line_act; eauto.
        * right. destruct (RB y a h s p Ez) as (r' & I' & i1 & j1 & s1 & p1 & m1 & rest1 & Eo1 & Em1 & Es1 & O1 & F1 & F2 & _). exists r'. split; auto. split; auto. rewrite Ez in Eo1. injection Eo1 as <- <- <- <-. destruct (ok_fun P _ _ _ _ _ Oz O1) as [Q _]. congruence.
      + rewrite (K1 j L) in E. injection E as <-. assert (Ex : nth_error (printed [NMeth i0 j0 subs prims]) j = Some (nth j prims 0)) by (unfold printed; cbn; rewrite app_nil_r; now apply nth_error_nth'). exists (nth j prims 0).
        split; [rewrite Es, nth_error_app1 by lia; now apply nth_error_nth'|]. left. apply in_acts. eapply line_act; eauto.
    - intros i I N. destruct (id_node i I) as [(q & M)|(q & x & M)].
      + destruct (Nat.eq_dec q 0) as [->|N0]; [exfalso; apply N; destruct M as [_ <-]; apply root_main|]. destruct (parent_line q i M N0) as (o & c & j & _ & _ & CH). eauto.
      + destruct (parent_merged q x i M) as (c & _ & CH). eauto.
    - intros i p j p' j' C1 C2. destruct (child_cases p i j C1) as (o & Mo & CC). destruct (child_cases p' i j' C2) as (o' & Mo' & CC').
      destruct CC as [Mg|(i0 & j0 & subs & prims & m & rest & k & y & Eo & Em & Es & Lk & Ej & KL & My)], CC' as [Mg'|(i0' & j0' & subs' & prims' & m' & rest' & k' & y' & Eo' & Em' & Es' & Lk' & Ej' & KL' & My')].
      + destruct (merged_inj _ _ _ _ _ Mg Mg') as [<- <-]. split; auto. destruct Mo as [_ <-], Mo' as [_ <-]. reflexivity.
      + exfalso. exact (main_merged _ _ _ _ My' Mg).
      + exfalso. exact (main_merged _ _ _ _ My Mg').
      + assert (y' = y) by exact (main_inj _ _ _ My' My). subst y'. destruct KL as (A & (z & rz & Ez & Hz & _) & C). destruct KL' as (A' & (z' & rz' & Ez' & Hz' & _) & C'). rewrite Ez in Ez'. injection Ez' as <-.
        assert (o = o'). { destruct (lt_eq_lt_dec o o') as [[Q|Q]|Q]; auto; [assert (X := C o' _ ltac:(lia) Eo')|assert (X := C' o _ ltac:(lia) Eo)]; cbn [width meth head] in X; lia. } subst o'.
        rewrite Eo in Eo'. injection Eo' as <- <- <- <-. rewrite Em in Em'. injection Em' as <-. rewrite Es in Es'. apply app_inv_head in Es'. subst rest'. split; [destruct Mo as [_ <-], Mo' as [_ <-]; reflexivity|lia].
    - intros p j CH. destruct (child_cases p pmax j CH) as (o & Mo & CC). assert (RM := root_main). destruct CC as [Mg|(i0 & j0 & subs & prims & m & rest & k & y & Eo & Em & Es & Lk & Ej & KL & My)]; [exact (main_merged _ _ _ _ RM Mg)|].
      assert (y = 0) by exact (main_inj _ _ _ My RM). subst y. destruct KL as [A _]. lia.
    - intros i I. destruct (id_node i I) as [(q & M)|(q & x & M)]; [eapply below_line; eauto|]. destruct (parent_merged q x i M) as (c & Mc & CH). eapply rt_trans; [eapply below_line; eauto|]. apply rt_step. eauto.
    - rewrite acts_fst. intros q1 q2 a b L Ea Eb (r & m & j & k & ca & cb & I & Em & LT & Eca & Ecb & Bb & Ba).
      assert (a = q1 /\ q1 < pmax) as [-> La] by (assert (X : q1 < length (seq 0 pmax)) by (apply nth_error_Some; congruence); rewrite seq_length in X; rewrite (nth_error_nth' _ 0), seq_nth in Ea by (rewrite ?seq_length; lia); injection Ea as <-; auto).
      assert (b = q2 /\ q2 < pmax) as [-> Lb] by (assert (X : q2 < length (seq 0 pmax)) by (apply nth_error_Some; congruence); rewrite seq_length in X; rewrite (nth_error_nth' _ 0), seq_nth in Eb by (rewrite ?seq_length; lia); injection Eb as <-; auto).
      destruct (RA r I) as (o & i0 & j0 & subs & prims & m' & rest & Eo & Em' & Es & O & E1 & E2 & E3 & LK & K1 & K2). rewrite E3, Em' in Em. injection Em as <-. assert (Im := nth_error_In _ _ Em').
      assert (Lj : j < length (m_subs m')) by (rewrite <- LK; apply nth_error_Some; congruence). assert (Lk : k < length (m_subs m')) by (rewrite <- LK; apply nth_error_Some; congruence). assert (JK := lt_of_m_lt m' j k Im Lj Lk LT). rewrite Es, app_length in Lj, Lk.
      assert (MA : forall x, x < length prims -> merged o x (pos o + x)) by (intros x Lx; exists i0, j0, subs, prims; auto).
      destruct (le_lt_dec (length prims) k) as [Qk|Qk].
      + destruct (K2 (length rest - 1 - (k - length prims))) as (y2 & KL2 & Ey2); [lia|]. replace (length prims + (length rest - 1 - (length rest - 1 - (k - length prims)))) with k in Ey2 by lia. rewrite Ecb in Ey2. injection Ey2 as ->.
        assert (Ly2 := proj1 KL2). assert (My2 : main y2 (idl y2)) by (split; auto; destruct KL2 as (_ & (w & ? & Ew & _) & _); apply nth_error_Some; congruence). destruct (below_main y2 _ q1 My2 Ba) as (z2 & U2 & N2). destruct (act_under z2 q1 q1 N2 La eq_refl) as (n2 & x2 & En2 & Lx2 & Ea2).
        assert (Y : pos y2 <= pos z2). { destruct (proj1 (Nat.le_lteq y2 z2) (proj1 U2)) as [Q|<-]; auto. destruct (nth_error ls y2) as [w|] eqn:Ew; [|destruct My2 as [Q' _]; apply nth_error_None in Ew; lia]. assert (X := pos_lt _ _ _ Ew Q). lia. }
        destruct (le_lt_dec (length prims) j) as [Qj|Qj].
        * destruct (K2 (length rest - 1 - (j - length prims))) as (y1 & KL1 & Ey1); [lia|]. replace (length prims + (length rest - 1 - (length rest - 1 - (j - length prims)))) with j in Ey1 by lia. rewrite Eca in Ey1. injection Ey1 as ->.
          assert (My1 : main y1 (idl y1)) by (split; auto; destruct KL1 as (_ & (w & ? & Ew & _) & _); apply nth_error_Some; congruence). destruct (below_main y1 _ q2 My1 Bb) as (z1 & U1 & N1). destruct (act_under z1 q2 q2 N1 Lb eq_refl) as (n1 & x1 & En1 & Lx1 & Eb1).
          assert (Z : z1 < y2) by (eapply (sibling o _ _ y1 _ _ y2); [exact Eo| | |exact KL1|exact KL2|exact U1]; cbn; lia). assert (X := pos_lt _ _ _ En1 Z). lia.
        * rewrite (K1 j Qj) in Eca. injection Eca as <-. apply (below_merged o j) in Bb; auto. assert (X := pos_lt _ _ _ Eo Ly2). cbn [width meth head] in X. lia.
      + rewrite (K1 k Qk) in Ecb. injection Ecb as <-. apply (below_merged o k) in Ba; auto. rewrite (K1 j) in Eca by lia. injection Eca as <-. apply (below_merged o j) in Bb; [|apply MA; lia]. lia.
  Qed.
End Tree.
