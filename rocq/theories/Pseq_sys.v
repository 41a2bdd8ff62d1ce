(** The operators on the variables for heads, constraints and positions of sequences, and their meaning for parallel sequences. *)
From Verif Require Import Base Htn_problem Htn_spec Push_net Push_sys Strips_model Strips_sys Strips_sim Strips_ops Pseq_spec Pseq_net Pseq_run.

Section Sys.
  Variables (n pgb : nat).
  (** SM 0 is the variable of the initial task, SK k the head of sequence k, SC a b the constraint that a precedes b, ST (k * pgb + j) position j of sequence k. *)
  Definition valid (s : slot) : Prop := match s with ST p => p < n * pgb | SC k j => k < n /\ j < n /\ k <> j | SK k => k < n | SM p => p = 0 end.
  Definition isnil (l : list nat) : bool := match l with [] => true | _ => false end.
  Definition ordered (o : list (nat * nat)) (a b : nat) : bool := existsb (fun e => ((fst e =? a) && (snd e =? b))%bool) o.
  Definition cf (A : astate) : conf := fun s =>
    match A with
    | None => match s with SM _ => 1 | _ => 0 end
    | Some (o, r) => match s with
                     | SM _ => 0
                     | SK k => length (r k)
                     | SC a b => if (ordered o a b && negb (isnil (r a)))%bool then 1 else 0
                     | ST p => nth (p mod pgb) (map S (rev (r (p / pgb)))) 0
                     end
    end.

  Definition before_q (k : nat) : list (slot * nat) := map (fun l => (SC (skip k l) k, 0)) (seq 0 (n - 1)).
  Definition release_q (k : nat) : list (slot * nat) := map (fun l => (SC k (skip k l), 0)) (seq 0 (n - 1)).
  Definition ready_q (i j k : nat) : list (slot * nat) := [(SK k, S j); (ST (k * pgb + j), S i)] ++ before_q k.
  Definition pact_q (i j k : nat) : qop := (ready_q i j k, [(SK k, j); (ST (k * pgb + j), 0)] ++ if j =? 0 then release_q k else []).
  Definition pmeth_q (m : method) (j k : nat) : qop :=
    (ready_q (m_task m) j k,
     match rev (m_subs m) with
     | [t] => [(ST (k * pgb + j), S t)]
     | s => map (fun lt => (ST (k * pgb + j + fst lt), S (snd lt))) (combine (seq 0 (length s)) s) ++ [(SK k, j + length s)]
     end).
  Definition cslot (i : nat) : slot := SC (i / (n - 1)) (skip (i / (n - 1)) (i mod (n - 1))).
  Definition cval (o : list (nat * nat)) (i : nat) : nat := if existsb (fun e => ci n (fst e) (snd e) =? i) o then 1 else 0.
  Definition ptop_q (m : method) : qop :=
    ([(SM 0, 1)],
     [(SM 0, 0)] ++ map (fun l => (SK l, 1)) (seq 0 n) ++ map (fun l => (ST (l * pgb), S (nth l (rev (m_subs m)) 0))) (seq 0 n) ++
     map (fun i => (cslot i, cval (mord m) i)) (seq 0 (n * (n - 1)))).

  Lemma ordered_in o a b : ordered o a b = true <-> In (a, b) o.
  Proof.
    unfold ordered. rewrite existsb_exists. split.
    - intros ([x y] & I & E). apply andb_true_iff in E as [E1 E2]. apply Nat.eqb_eq in E1, E2. cbn in *. now subst.
    - intros I. exists (a, b). cbn. now rewrite !Nat.eqb_refl.
  Qed.
  Lemma cf_pos o r k j : j < pgb -> cf (Some (o, r)) (ST (k * pgb + j)) = nth j (map S (rev (r k))) 0.
  Proof. intros L. cbn. rewrite Nat.div_add_l, Nat.div_small, Nat.add_0_r by lia. rewrite Nat.add_comm, Nat.mod_add, Nat.mod_small by lia. reflexivity. Qed.
  Lemma cslot_ci i : i < n * (n - 1) -> exists k j, k < n /\ j < n /\ k <> j /\ cslot i = SC k j /\ ci n k j = i.
  Proof.
    intros L. assert (NZ : n - 1 <> 0) by (intros E; rewrite E, Nat.mul_0_r in L; lia). assert (DM := Nat.div_mod i (n - 1) NZ). assert (ML := Nat.mod_upper_bound i (n - 1) NZ). unfold cslot. set (k := i / (n - 1)) in *. set (x := i mod (n - 1)) in *.
    exists k, (skip k x). assert (k < n) by nia. split; auto. split; [apply skip_lt; lia|]. split; [intros E; symmetry in E; now apply skip_ne in E|]. split; auto. rewrite ci_skip. nia.
  Qed.

  Lemma before_in k e : k < n -> (In e (before_q k) <-> exists l, l < n /\ l <> k /\ e = (SC l k, 0)).
  Proof.
    intros L. unfold before_q. rewrite in_map_iff. split.
    - intros (l & <- & I). apply in_seq in I. exists (skip k l). split; [apply skip_lt; lia|]. split; [apply skip_ne|auto].
    - intros (l & Ll & N & ->). destruct (skip_surj k l n Ll L N) as (x & Lx & <-). exists x. split; auto. apply in_seq. lia.
  Qed.
  Lemma release_in k e : k < n -> (In e (release_q k) <-> exists l, l < n /\ l <> k /\ e = (SC k l, 0)).
  Proof.
    intros L. unfold release_q. rewrite in_map_iff. split.
    - intros (l & <- & I). apply in_seq in I. exists (skip k l). split; [apply skip_lt; lia|]. split; [apply skip_ne|auto].
    - intros (l & Ll & N & ->). destruct (skip_surj k l n Ll L N) as (x & Lx & <-). exists x. split; auto. apply in_seq. lia.
  Qed.
  Lemma nth_stack (x : nat) t : nth (length t) (map S (rev (x :: t))) 0 = S x.
  Proof. cbn [rev]. rewrite map_app, app_nth2 by (rewrite map_length, rev_length; lia). now rewrite map_length, rev_length, Nat.sub_diag. Qed.

  (** ** Preconditions *)
  Lemma ready_iff A i j k : aok n A -> k < n -> j < pgb ->
    ((forall p, In p (ready_q i j k) -> cf A (fst p) = snd p) <-> exists o r t, A = Some (o, r) /\ r k = i :: t /\ length t = j /\ free o r k).
  Proof.
    intros OK Lk Lj. split.
    - intros H. assert (H1 := H (SK k, S j) ltac:(now left)). assert (H2 := H (ST (k * pgb + j), S i) ltac:(right; now left)). cbn [fst snd] in *. destruct A as [[o r]|]; [|discriminate]. rewrite cf_pos in H2 by auto. cbn in H1.
      destruct (r k) as [|x t] eqn:E; [discriminate|]. cbn [length] in H1. injection H1 as <-. rewrite nth_stack in H2. injection H2 as ->. exists o, r, t. repeat split; auto. intros l I. assert (X := OK l k I). cbn in X.
      specialize (H (SC l k, 0)). cbn [fst snd cf] in H. rewrite (proj2 (ordered_in o l k) I) in H. cbn [andb] in H. destruct (r l); auto. cbn in H. assert (Q : 1 = 0); [|discriminate]. apply H. right. right. apply before_in; auto. exists l. repeat split; auto; lia.
    - intros (o & r & t & -> & E & <- & F) p I. apply in_app_or in I as [[<-|[<-|[]]]|I]; cbn [fst snd].
      + cbn. now rewrite E.
      + rewrite cf_pos, E by auto. apply nth_stack.
      + apply before_in in I as (l & Ll & N & ->); auto. cbn [fst snd cf]. destruct (ordered o l k) eqn:Q; auto. apply ordered_in in Q. rewrite (F l Q). reflexivity.
  Qed.
  Lemma top_iff A : qpre (ptop_q {| m_task := 0; m_subs := []; m_ord := [] |}) (cf A) <-> A = None.
  Proof.
    unfold qpre. cbn. split.
    - intros H. specialize (H _ (or_introl eq_refl)). cbn in H. destruct A as [[o r]|]; [discriminate|reflexivity].
    - intros -> p [<-|[]]. reflexivity.
  Qed.

  (** ** Effects *)
  Lemma pos_split p : 1 <= pgb -> p = (p / pgb) * pgb + p mod pgb /\ p mod pgb < pgb.
  Proof. intros L. split; [rewrite Nat.mul_comm; apply Nat.div_mod; lia|apply Nat.mod_upper_bound; lia]. Qed.
  Lemma act_eff o r i k t s : aok n (Some (o, r)) -> k < n -> length t < pgb -> r k = i :: t -> valid s ->
    qeff (pact_q i (length t) k) (cf (Some (o, r))) s = cf (Some (o, put r k t)) s.
  Proof.
    intros OK Lk Lj E Vs. unfold qeff, pact_q. cbn [snd]. set (es := [(SK k, length t); (ST (k * pgb + length t), 0)] ++ (if length t =? 0 then release_q k else [])).
    assert (IN : forall s d, In (s, d) es <-> (s = SK k /\ d = length t) \/ (s = ST (k * pgb + length t) /\ d = 0) \/ (t = [] /\ exists l, l < n /\ l <> k /\ s = SC k l /\ d = 0)).
    { intros s' d. unfold es. rewrite in_app_iff. cbn [In]. split.
      - intros [[[= <- <-]|[[= <- <-]|[]]]|I]; auto. destruct t; [|destruct I]. cbn in I. apply release_in in I as (l & Ll & N & [= -> ->]); auto. right. right. split; auto. exists l. auto.
      - intros [[-> ->]|[[-> ->]|(-> & l & Ll & N & -> & ->)]]; auto. right. cbn. apply release_in; auto. exists l. auto. }
    destruct (upd_case es (cf (Some (o, r))) s) as [(d & I & ->)|[NI ->]].
    - apply IN in I as [[-> ->]|[[-> ->]|(-> & l & Ll & N & -> & ->)]].
      + cbn. now rewrite put_eq.
      + rewrite cf_pos, put_eq by auto. symmetry. apply nth_overflow. rewrite map_length, rev_length. lia.
      + cbn. rewrite put_eq. cbn. now rewrite andb_false_r.
    - destruct s as [p|a b|q|q]; cbn [cf]; cbn [valid] in Vs.
      + destruct (pos_split p) as [Ep Lp]; [lia|]. destruct (Nat.eq_dec (p / pgb) k) as [Ek|Nk]; [|now rewrite put_ne]. rewrite Ek, put_eq, E. assert (NJ : p mod pgb <> length t) by (intros Q; apply (NI 0), IN; right; left; split; auto; f_equal; lia).
        cbn [rev]. rewrite map_app. destruct (Nat.lt_ge_cases (p mod pgb) (length t)); [rewrite app_nth1 by (rewrite map_length, rev_length; lia); reflexivity|]. rewrite !nth_overflow; rewrite ?app_length, ?map_length, ?rev_length; cbn [length map]; auto; lia.
      + destruct (Nat.eq_dec a k) as [->|Na]; [|now rewrite put_ne]. rewrite put_eq, E. destruct t; [|reflexivity]. exfalso. apply (NI 0), IN. right. right. split; auto. exists b. repeat split; auto; lia.
      + destruct (Nat.eq_dec q k) as [->|Nq]; [exfalso; apply (NI (length t)), IN; auto|now rewrite put_ne].
      + reflexivity.
  Qed.

  Lemma meth_eff o r m k t s : aok n (Some (o, r)) -> k < n -> 1 <= length (m_subs m) -> length (m_subs m) + length t <= pgb -> r k = m_task m :: t -> valid s ->
    qeff (pmeth_q m (length t) k) (cf (Some (o, r))) s = cf (Some (o, put r k (m_subs m ++ t))) s.
  Proof.
    intros OK Lk N1 LE E Vs. unfold qeff, pmeth_q. cbn [snd]. set (es := match rev (m_subs m) with [] => _ | _ => _ end). set (nn := length (m_subs m)) in *. assert (LR : length (rev (m_subs m)) = nn) by apply rev_length.
    assert (IN : forall s d, In (s, d) es <-> (exists a x, nth_error (rev (m_subs m)) a = Some x /\ s = ST (k * pgb + length t + a) /\ d = S x) \/ (nn <> 1 /\ s = SK k /\ d = length t + nn)).
    { intros s' d. unfold es. destruct (rev (m_subs m)) as [|x1 [|x2 l]] eqn:Er; [cbn in LR; lia| |].
      - cbn in LR. cbn [In]. split.
        + intros [[= <- <-]|[]]. left. exists 0, x1. rewrite Nat.add_0_r. auto.
        + intros [(a & x & Ea & -> & ->)|(N & _)]; [|lia]. destruct a as [|a]; [|destruct a; discriminate]. cbn in Ea. injection Ea as ->. left. now rewrite Nat.add_0_r.
      - rewrite <- Er in *. rewrite in_app_iff, in_map_iff. cbn [In]. split.
        + intros [([a x] & [= <- <-] & I)|[[= <- <-]|[]]].
          * apply nth_comb in I as [_ I]. rewrite Nat.sub_0_r in I. left. exists a, x. auto.
          * right. rewrite LR. repeat split; auto. rewrite <- LR, Er. cbn. lia.
        + intros [(a & x & Ea & -> & ->)|(_ & -> & ->)]; [left; exists (a, x); split; auto; apply nth_comb; rewrite Nat.sub_0_r; split; [lia|auto]|right; left; now rewrite LR]. }
    assert (ST' : forall q, nth q (map S (rev (m_subs m ++ t))) 0 = if q <? length t then nth q (map S (rev t)) 0 else nth (q - length t) (map S (rev (m_subs m))) 0).
    { intros q. rewrite rev_app_distr, map_app. destruct (Nat.ltb_spec q (length t)); [rewrite app_nth1; auto; rewrite map_length, rev_length; lia|rewrite app_nth2; rewrite map_length, rev_length; auto; lia]. }
    destruct (upd_case es (cf (Some (o, r))) s) as [(d & I & ->)|[NI ->]].
    - apply IN in I as [(a & x & Ea & -> & ->)|(N & -> & ->)].
      + assert (La : a < nn) by (rewrite <- LR; apply nth_error_Some; congruence). rewrite <- Nat.add_assoc, cf_pos, put_eq, ST' by lia. destruct (Nat.ltb_spec (length t + a) (length t)); [lia|]. replace (length t + a - length t) with a by lia. symmetry. apply (map_nth_error S) in Ea. now apply nth_error_nth.
      + cbn. rewrite put_eq, app_length. fold nn. lia.
    - destruct s as [p|a b|q|q]; cbn [cf]; cbn [valid] in Vs.
      + destruct (pos_split p) as [Ep Lp]; [lia|]. destruct (Nat.eq_dec (p / pgb) k) as [Ek|Nk]; [|now rewrite put_ne]. rewrite Ek, put_eq, E, ST'. destruct (Nat.ltb_spec (p mod pgb) (length t)) as [L|L]; [cbn [rev]; rewrite map_app, app_nth1 by (rewrite map_length, rev_length; lia); reflexivity|].
        assert (nn <= p mod pgb - length t). { destruct (Nat.le_gt_cases nn (p mod pgb - length t)) as [|Q]; auto. exfalso. destruct (nth_error (rev (m_subs m)) (p mod pgb - length t)) as [x|] eqn:Ex; [|apply nth_error_None in Ex; lia]. apply (NI (S x)), IN. left. exists (p mod pgb - length t), x. split; auto. split; auto. f_equal. lia. }
        rewrite !nth_overflow; rewrite ?map_length, ?rev_length; cbn [length]; fold nn; auto; lia.
      + destruct (Nat.eq_dec a k) as [->|Na]; [|now rewrite put_ne]. rewrite put_eq, E. destruct (m_subs m); [cbn in nn; lia|reflexivity].
      + destruct (Nat.eq_dec q k) as [->|Nq]; [|now rewrite put_ne]. rewrite put_eq, app_length, E. fold nn. cbn [length]. destruct (Nat.eq_dec nn 1); [lia|]. exfalso. apply (NI (length t + nn)), IN. auto.
      + reflexivity.
  Qed.

  Lemma top_eff m s : 1 <= pgb -> length (m_subs m) = n -> (forall a b, In (a, b) (mord m) -> b < a < n) -> valid s -> qeff (ptop_q m) (cf None) s = cf (Some (mord m, start m)) s.
  Proof.
    intros PG LN OK Vs. unfold qeff, ptop_q. cbn [snd]. set (es := [(SM 0, 0)] ++ _).
    assert (IN : forall s d, In (s, d) es <-> (s = SM 0 /\ d = 0) \/ (exists l, l < n /\ s = SK l /\ d = 1) \/ (exists l, l < n /\ s = ST (l * pgb) /\ d = S (nth l (rev (m_subs m)) 0)) \/ (exists i, i < n * (n - 1) /\ s = cslot i /\ d = cval (mord m) i)).
    { intros s' d. unfold es. rewrite !in_app_iff, !in_map_iff. cbn [In]. split.
      - intros [[[= <- <-]|[]]|[(l & [= <- <-] & I)|[(l & [= <- <-] & I)|(i & E & I)]]]; [auto|apply in_seq in I; right; left; exists l; repeat split; lia|apply in_seq in I; right; right; left; exists l; repeat split; lia|].
        apply in_seq in I. right. right. right. exists i. split; [lia|]. split; congruence.
      - intros [[-> ->]|[(l & L & -> & ->)|[(l & L & -> & ->)|(i & L & -> & ->)]]]; [auto|right; left; exists l; split; auto; apply in_seq; lia|right; right; left; exists l; split; auto; apply in_seq; lia|right; right; right; exists i; split; auto; apply in_seq; lia]. }
    assert (ST' : forall l, l < n -> start m l = [nth l (rev (m_subs m)) 0]) by (intros l L; unfold start; rewrite LN; destruct (Nat.ltb_spec l n); [auto|lia]).
    destruct (upd_case es (cf None) s) as [(d & I & ->)|[NI ->]].
    - apply IN in I as [(-> & ->)|[(l & L & -> & ->)|[(l & L & -> & ->)|(i & L & -> & ->)]]].
      + reflexivity.
      + cbn. now rewrite ST'.
      + replace (l * pgb) with (l * pgb + 0) by lia. rewrite cf_pos, ST' by lia. reflexivity.
      + destruct (cslot_ci i L) as (k & j & Lk & Lj & N & -> & Ei). cbn [cf]. rewrite ST' by auto. cbn [isnil negb]. rewrite andb_true_r. unfold cval. destruct (ordered (mord m) k j) eqn:O.
        * apply ordered_in in O. assert (X : existsb (fun e => ci n (fst e) (snd e) =? i) (mord m) = true); [|now rewrite X]. apply existsb_exists. exists (k, j). split; auto. cbn. now apply Nat.eqb_eq.
        * destruct (existsb (fun e => ci n (fst e) (snd e) =? i) (mord m)) eqn:X; auto. exfalso. apply existsb_exists in X as ([a b] & I & X). apply Nat.eqb_eq in X. cbn [fst snd] in X. assert (Y := OK a b I). destruct (ci_inj n a b k j) as [E1 E2]; try lia. subst a b. apply ordered_in in I. rewrite I in O. discriminate.
    - destruct s as [p|a b|q|q]; cbn [cf]; cbn [valid] in Vs.
      + destruct (pos_split p PG) as [Ep Lp]. symmetry. assert (Lk : p / pgb < n) by (apply Nat.div_lt_upper_bound; lia). rewrite ST' by auto. cbn [rev app map]. apply nth_overflow. cbn [length]. destruct (Nat.eq_dec (p mod pgb) 0); [|lia]. exfalso. apply (NI (S (nth (p / pgb) (rev (m_subs m)) 0))), IN. right. right. left. exists (p / pgb). split; auto. split; auto. f_equal. lia.
      + exfalso. destruct Vs as (La & Lb & N). assert (X := ci_lt n a b La Lb N). destruct (cslot_ci (ci n a b) X) as (k & j & Lk & Lj & N' & Ec & Ei). destruct (ci_inj n k j a b Lk Lj N' La Lb N Ei) as [-> ->]. apply (NI (cval (mord m) (ci n a b))), IN. right. right. right. exists (ci n a b). split; auto.
      + exfalso. apply (NI 1), IN. right. left. eauto.
      + exfalso. apply (NI 0), IN. left. split; [congruence|auto].
  Qed.
End Sys.
