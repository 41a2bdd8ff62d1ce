(** The operators of the translation without conditional effects on positions, and their meaning for task networks. *)
From Coq Require Import Relations.
From Verif Require Import Base Htn_problem Htn_spec Htn_sem Htn_iso Push_model Push_net Push_sys Strips_model Strips_spec Strips_net.

(** Preconditions and effects *)
Definition qop : Type := list (slot * nat) * list (slot * nat).
Definition qpre (o : qop) (c : conf) : Prop := forall p, In p (fst o) -> c (fst p) = snd p.
Definition qeff (o : qop) (c : conf) : conf := upd (snd o) c.

Lemma skip_ne j x : skip j x <> j.
Proof. unfold skip. destruct (Nat.leb_spec j x); lia. Qed.
Lemma skip_inj j x y : skip j x = skip j y -> x = y.
Proof. unfold skip. destruct (Nat.leb_spec j x), (Nat.leb_spec j y); lia. Qed.
Lemma skip_lt j x n : x < n - 1 -> skip j x < n.
Proof. unfold skip. destruct (Nat.leb_spec j x); lia. Qed.
Lemma skip_surj j p n : p < n -> j < n -> p <> j -> exists x, x < n - 1 /\ skip j x = p.
Proof. intros Lp Lj N. destruct (Nat.lt_ge_cases p j); [exists p|exists (p - 1)]; unfold skip; [destruct (Nat.leb_spec j p)|destruct (Nat.leb_spec j (p - 1))]; lia. Qed.

Section Sys.
  Variable pgb : nat.

  Definition ready_q (j b : nat) : list (slot * nat) := map (fun l => if l =? j then (ST j, b) else (SC l j, 0)) (seq 0 pgb).
  Definition empty_q (i : nat) : qop := (ready_q i 1, map (fun k => if k =? i then (ST i, 0) else (SC i k, 0)) (seq 0 pgb) ++ [(SK i, 0)]).
  Definition act_q (i j : nat) : qop := (ready_q j (i + 2), (ST j, 0) :: map (fun k => (SC j (skip j k), 0)) (seq 0 (pgb - 1)) ++ [(SK j, 0)]).
  Definition fresh_q (j : nat) (raw : list nat) : list (slot * nat) :=
    match raw with
    | [] => []
    | _ => map (fun x => (ST (skip j x), 0)) raw ++ map (fun x => (SK (skip j x), if memb x raw then 0 else 1)) (seq 0 (S (last raw 0)))
    end.
  (** The positions of the subtasks, in the reversed listing *)
  Definition places (nl : bool) (j : nat) (raw : list nat) : list nat := if nl then map (skip j) raw else j :: map (skip j) raw.
  Definition meth_q (m : method) (s : list nat) (o : list (nat * nat)) (nl : bool) (j : nat) (raw : list nat) : qop :=
    let pl := places nl j raw in
    (ready_q j (m_task m + 2) ++ fresh_q j raw,
     (if nl then [(ST j, 1)] else []) ++ map (fun pt => (ST (fst pt), 2 + snd pt)) (combine pl s) ++ (if nl then map (fun x => (SC (skip j x) j, 1)) raw else []) ++
     map (fun x => (SK (skip j x), 1)) raw ++ map (fun e => (SC (nth (fst e) pl 0) (nth (snd e) pl 0), 1)) o).

  Lemma ready_in j b e : j < pgb -> (In e (ready_q j b) <-> (exists k, k < pgb /\ k <> j /\ e = (SC k j, 0)) \/ e = (ST j, b)).
  Proof.
    intros L. unfold ready_q. rewrite in_map_iff. split.
    - intros (k & <- & I). apply in_seq in I. destruct (Nat.eqb_spec k j); [auto|]. left. exists k. repeat split; auto; lia.
    - intros [(k & Lk & N & ->)| ->].
      + exists k. rewrite in_seq. split; [|lia]. destruct (Nat.eqb_spec k j); [contradiction|auto].
      + exists j. rewrite in_seq. split; [|lia]. now rewrite Nat.eqb_refl.
  Qed.
  Definition ready (c : conf) (j b : nat) : Prop := c (ST j) = b /\ forall k, k < pgb -> k <> j -> c (SC k j) = 0.
  Lemma ready_iff c j b : j < pgb -> ((forall p, In p (ready_q j b) -> c (fst p) = snd p) <-> ready c j b).
  Proof.
    intros L. split.
    - intros H. split; [apply (H (ST j, b)), ready_in; auto|]. intros k Lk N. apply (H (SC k j, 0)), ready_in; auto. left. eauto.
    - intros (A & B) p I. apply (ready_in j b p L) in I as [(k & Lk & N & ->)| ->]; cbn [fst snd]; auto.
  Qed.
  Lemma ready_edge c j b k : ready c j b -> ~ edge pgb c k j.
  Proof. intros (_ & H) (L & _ & N & E). rewrite H in E by auto. discriminate. Qed.

  Definition bin (c : conf) : Prop := forall k q, k < pgb -> q < pgb -> k <> q -> c (SC k q) <= 1.
  Record ok (c : conf) : Prop := { k_clean : clean pgb c; k_rank : ranked pgb c; k_bin : bin c }.

  (** ** Tasks that leave the network *)
  Definition leaves (j : nat) (es : list (slot * nat)) : Prop := forall e, In e es <-> (exists k, k < pgb /\ k <> j /\ e = (SC j k, 0)) \/ e = (ST j, 0) \/ e = (SK j, 0).
  Lemma empty_leaves i : i < pgb -> leaves i (snd (empty_q i)).
  Proof.
    intros L e. unfold empty_q. cbn [snd]. rewrite in_app_iff, in_map_iff. cbn [In]. split.
    - intros [(k & <- & I)|[<-|[]]]; auto. apply in_seq in I. destruct (Nat.eqb_spec k i); auto. left. exists k. repeat split; auto; lia.
    - intros [(k & Lk & N & ->)|[->| ->]]; auto.
      + left. exists k. rewrite in_seq. split; [|lia]. destruct (Nat.eqb_spec k i); [contradiction|auto].
      + left. exists i. rewrite in_seq. split; [|lia]. now rewrite Nat.eqb_refl.
  Qed.
  Lemma act_leaves i j : j < pgb -> leaves j (snd (act_q i j)).
  Proof.
    intros L e. unfold act_q. cbn [snd In]. rewrite in_app_iff, in_map_iff. cbn [In]. split.
    - intros [<-|[(k & <- & I)|[<-|[]]]]; auto. apply in_seq in I. left. exists (skip j k). split; [apply skip_lt; lia|]. split; auto. apply skip_ne.
    - intros [(k & Lk & N & ->)|[->| ->]]; auto. right. left. destruct (skip_surj j k pgb Lk L N) as (x & Lx & <-). exists x. rewrite in_seq. split; [auto|lia].
  Qed.
  Lemma leave_val c j es : j < pgb -> leaves j es -> let c' := upd es c in
    (forall p, p < pgb -> c' (ST p) = if p =? j then 0 else c (ST p)) /\ (forall k q, k < pgb -> q < pgb -> k <> q -> c' (SC k q) = if k =? j then 0 else c (SC k q)) /\
    (forall p, c' (SK p) = if p =? j then 0 else c (SK p)).
  Proof.
    intros L LI. cbv zeta. split; [|split].
    - intros p _. destruct (upd_case es c (ST p)) as [(d & I & ->)|[I ->]].
      + apply LI in I as [(k & _ & _ & [=])|[[= -> ->]|[=]]]. now rewrite Nat.eqb_refl.
      + destruct (Nat.eqb_spec p j) as [->|]; auto. exfalso. apply (I 0), LI. auto.
    - intros k q Lk Lq N. destruct (upd_case es c (SC k q)) as [(d & I & ->)|[I ->]].
      + apply LI in I as [(k' & _ & _ & [= -> -> ->])|[[=]|[=]]]. now rewrite Nat.eqb_refl.
      + destruct (Nat.eqb_spec k j) as [->|]; auto. exfalso. apply (I 0), LI. left. exists q. repeat split; auto.
    - intros p. destruct (upd_case es c (SK p)) as [(d & I & ->)|[I ->]].
      + apply LI in I as [(k & _ & _ & [=])|[[=]|[= -> ->]]]. now rewrite Nat.eqb_refl.
      + destruct (Nat.eqb_spec p j) as [->|]; auto. exfalso. apply (I 0), LI. auto.
  Qed.
  Lemma leave_ok c j b es : j < pgb -> leaves j es -> ok c -> ready c j b -> let c' := upd es c in
    ok c' /\ (2 <= b -> teq (minus (net pgb c) [j]) (net pgb c') /\ minimal (net pgb c) [j]) /\ (b = 1 -> teq (net pgb c) (net pgb c')).
  Proof.
    intros L LI [C R B] RD c'. destruct (leave_val c j es L LI) as (H1 & H2 & _). fold c' in H1, H2. assert (NE : forall k, ~ edge pgb c k j) by (intros k; eapply ready_edge; eauto).
    destruct (net_leave pgb c c' j C R L NE H1 H2) as (C' & R' & T2 & T1). destruct RD as [<- _]. split; [split; auto|].
    - intros k q Lk Lq N. rewrite H2 by auto. destruct (k =? j); [lia|]. now apply B.
    - split; auto. intros Lb. split; auto. now apply net_minimal.
  Qed.

  (** ** Methods *)
  Section Meth.
    Variables (m : method) (nl : bool) (j : nat) (raw : list nat) (c : conf).
    Notation nn := (length (m_subs m)).
    Notation pl := (places nl j raw).
    Notation o := (meth_q m (rev (m_subs m)) (mord m) nl j raw).
    Definition posn (a : nat) : nat := nth (nn - 1 - a) pl 0.
    Hypotheses (N1 : 1 <= nn) (Lj : j < pgb) (OR : forall a b, In (a, b) (m_ord m) -> a < b < nn).
    Hypotheses (LR : length raw = if nl then nn else nn - 1) (IR : increasing raw) (BR : forall x, In x raw -> x < pgb - 1).

    Lemma pl_len : length pl = nn.
    Proof. unfold places. destruct nl; cbn; rewrite map_length; lia. Qed.
    Lemma raw_nodup : NoDup raw.
    Proof. apply NoDup_nth_error. intros a b La E. destruct (nth_error raw a) as [x|] eqn:Ea; [|apply nth_error_None in Ea; lia]. symmetry in E. destruct (Nat.lt_trichotomy a b) as [Q|[Q|Q]]; auto; [assert (X := IR a b x x Q Ea E)|assert (X := IR b a x x Q E Ea)]; lia. Qed.
    Lemma pl_nodup : NoDup pl.
    Proof.
      assert (X : NoDup (map (skip j) raw)) by (apply FinFun.Injective_map_NoDup; [intros x y; apply skip_inj|apply raw_nodup]). unfold places. destruct nl; auto. constructor; auto. intros I. apply in_map_iff in I as (x & E & _). now apply skip_ne in E.
    Qed.
    Lemma pl_in p : In p pl <-> (nl = false /\ p = j) \/ exists x, In x raw /\ p = skip j x.
    Proof.
      assert (X : In p (map (skip j) raw) <-> exists x, In x raw /\ p = skip j x) by (rewrite in_map_iff; split; intros (x & A & B); eauto). unfold places. destruct nl; cbn [In]; rewrite X; [split; [auto|intros [[? _]|H]; [discriminate|auto]]|]. split; intros [H|H]; auto. destruct H as [_ ->]. auto.
    Qed.
    Lemma posn_in a : a < nn -> In (posn a) pl.
    Proof. intros L. apply nth_In. rewrite pl_len. lia. Qed.
    Lemma in_posn p : In p pl -> exists a, a < nn /\ p = posn a.
    Proof. intros I. destruct (In_nth _ _ 0 I) as (k & Lk & E). rewrite pl_len in Lk. exists (nn - 1 - k). split; [lia|]. unfold posn. now replace (nn - 1 - (nn - 1 - k)) with k by lia. Qed.
    Lemma posn_lt a : a < nn -> posn a < pgb.
    Proof. intros L. apply posn_in, pl_in in L as [[_ ->]|(x & I & ->)]; auto. now apply skip_lt, BR. Qed.
    Lemma posn_inj a b : a < nn -> b < nn -> posn a = posn b -> a = b.
    Proof. intros La Lb E. assert (X := proj1 (NoDup_nth pl 0) pl_nodup (nn - 1 - a) (nn - 1 - b)). rewrite pl_len in X. specialize (X ltac:(lia) ltac:(lia) E). lia. Qed.
    Lemma posn_last : nl = false -> posn (nn - 1) = j.
    Proof. intros NL. unfold posn, places. now rewrite NL, Nat.sub_diag. Qed.
    Lemma posn_raw a : a < nn -> (nl = false /\ S a = nn /\ posn a = j) \/ exists x, In x raw /\ posn a = skip j x.
    Proof.
      intros L. destruct (proj1 (pl_in _) (posn_in a L)) as [[NL E]|X]; auto. left. split; auto. split; auto. rewrite <- (posn_last NL) in E. apply posn_inj in E; lia.
    Qed.
    Lemma raw_posn x : In x raw -> exists a, a < nn /\ skip j x = posn a.
    Proof. intros I. apply in_posn, pl_in. eauto. Qed.

    Lemma comb_in (l : list nat) : forall (l' : list nat) x y, length l = length l' -> (In (x, y) (combine l l') <-> exists k, nth_error l k = Some x /\ nth_error l' k = Some y).
    Proof.
      induction l as [|z l IH]; intros [|z' l'] x y E; try discriminate; cbn [combine In].
      - split; [tauto|]. intros ([|k] & X & _); discriminate.
      - injection E as E. rewrite IH by auto. split.
        + intros [[= <- <-]|(k & X & Y)]; [exists 0; auto|exists (S k); auto].
        + intros ([|k] & X & Y); [cbn in X, Y; left; congruence|right; exists k; auto].
    Qed.

    Lemma madd_in e : In e (snd o) <-> (nl = true /\ e = (ST j, 1)) \/ (exists a, a < nn /\ e = (ST (posn a), nth a (m_subs m) 0 + 2)) \/ (nl = true /\ exists a, a < nn /\ e = (SC (posn a) j, 1)) \/
      (exists x, In x raw /\ e = (SK (skip j x), 1)) \/ (exists a b, In (a, b) (m_ord m) /\ e = (SC (posn a) (posn b), 1)).
    Proof.
      unfold meth_q. cbn [snd]. rewrite !in_app_iff.
      assert (X1 : In e (if nl then [(ST j, 1)] else []) <-> nl = true /\ e = (ST j, 1)) by (destruct nl; cbn; split; [intros [<-|[]]; auto|intros [_ ->]; auto|tauto|intros [? _]; discriminate]).
      assert (X2 : In e (map (fun pt => (ST (fst pt), 2 + snd pt)) (combine pl (rev (m_subs m)))) <-> exists a, a < nn /\ e = (ST (posn a), nth a (m_subs m) 0 + 2)).
      { rewrite in_map_iff. assert (LL : length pl = length (rev (m_subs m))) by (rewrite rev_length; apply pl_len). split.
        - intros ([p t] & <- & I). apply comb_in in I as (k & A & B); auto. assert (Lk : k < nn) by (rewrite <- (rev_length (m_subs m)); apply nth_error_Some; congruence). exists (nn - 1 - k). split; [lia|]. cbn [fst snd]. unfold posn. replace (nn - 1 - (nn - 1 - k)) with k by lia.
          rewrite (nth_error_nth _ _ 0 A). apply (nth_error_nth _ _ 0) in B. rewrite rev_nth in B by auto. replace (nn - S k) with (nn - 1 - k) in B by lia. rewrite B. f_equal. lia.
        - intros (a & La & ->). exists (posn a, nth a (m_subs m) 0). cbn [fst snd]. split; [f_equal; lia|]. apply comb_in; auto. exists (nn - 1 - a). split; [apply nth_error_nth'; rewrite pl_len; lia|]. rewrite (nth_error_nth' _ 0) by (rewrite rev_length; lia). f_equal. rewrite rev_nth by lia. f_equal. lia. }
      assert (X3 : In e (if nl then map (fun x => (SC (skip j x) j, 1)) raw else []) <-> nl = true /\ exists a, a < nn /\ e = (SC (posn a) j, 1)).
      { split.
        - intros I. assert (NL : nl = true) by (destruct nl; [auto|destruct I]). split; auto. rewrite NL in I. apply in_map_iff in I as (x & <- & I). destruct (raw_posn x I) as (a & La & ->). eauto.
        - intros (NL & a & La & ->). destruct (posn_raw a La) as [(X & _)|(x & I & E)]; [congruence|]. rewrite NL, E. now apply (in_map (fun x => (SC (skip j x) j, 1))). }
      assert (X4 : In e (map (fun x => (SK (skip j x), 1)) raw) <-> exists x, In x raw /\ e = (SK (skip j x), 1)) by (rewrite in_map_iff; split; intros (x & A & B); eauto).
      assert (X5 : In e (map (fun e => (SC (nth (fst e) pl 0) (nth (snd e) pl 0), 1)) (mord m)) <-> exists a b, In (a, b) (m_ord m) /\ e = (SC (posn a) (posn b), 1)).
      { unfold mord. rewrite map_map, in_map_iff. cbn [fst snd]. split; [intros ([a b] & <- & I); cbn [fst snd]; exists a, b; auto|intros (a & b & I & ->); exists (a, b); auto]. }
      rewrite X1, X2, X3, X4, X5. tauto.
    Qed.

    Notation c' := (qeff o c).
    Lemma meth_st p : p < pgb -> (exists a, a < nn /\ p = posn a /\ c' (ST p) = nth a (m_subs m) 0 + 2) \/ (nl = true /\ p = j /\ c' (ST p) = 1) \/
      ((forall a, a < nn -> p <> posn a) /\ (nl = true -> p <> j) /\ c' (ST p) = c (ST p)).
    Proof.
      intros L. unfold qeff. destruct (upd_case (snd o) c (ST p)) as [(d & I & ->)|[I ->]].
      - apply madd_in in I as [(NL & [= -> ->])|[(a & La & [= -> ->])|[(_ & a & _ & [=])|[(x & _ & [=])|(a & b & _ & [=])]]]]; eauto 6.
      - right. right. split; [intros a La ->|split; auto; intros NL ->].
        + eapply I. apply madd_in. right. left. eauto.
        + eapply I. apply madd_in. left. eauto.
    Qed.
    Lemma meth_sk p : (exists x, In x raw /\ p = skip j x /\ c' (SK p) = 1) \/ ((forall x, In x raw -> p <> skip j x) /\ c' (SK p) = c (SK p)).
    Proof.
      unfold qeff. destruct (upd_case (snd o) c (SK p)) as [(d & I & ->)|[I ->]].
      - apply madd_in in I as [(NL & [=])|[(a & La & [=])|[(_ & a & _ & [=])|[(x & Ix & [= -> ->])|(a & b & _ & [=])]]]]. left. eauto.
      - right. split; auto. intros x Ix ->. eapply I. apply madd_in. do 3 right. left. eauto.
    Qed.
    Lemma meth_sc k q : (c' (SC k q) = 1 /\ ((nl = true /\ exists a, a < nn /\ k = posn a /\ q = j) \/ (exists a b, In (a, b) (m_ord m) /\ k = posn a /\ q = posn b))) \/
      (c' (SC k q) = c (SC k q) /\ ~ (nl = true /\ exists a, a < nn /\ k = posn a /\ q = j) /\ ~ (exists a b, In (a, b) (m_ord m) /\ k = posn a /\ q = posn b)).
    Proof.
      unfold qeff. destruct (upd_case (snd o) c (SC k q)) as [(d & I & ->)|[I ->]].
      - left. apply madd_in in I as [(NL & [=])|[(a & La & [=])|[(NL & a & La & [= -> -> ->])|[(x & Ix & [=])|(a & b & I & [= -> -> ->])]]]].
        + split; auto. left. eauto.
        + split; auto. right. eauto.
      - right. split; auto. split.
        + intros (NL & a & La & -> & ->). eapply I, madd_in. right. right. left. eauto.
        + intros (a & b & J & -> & ->). eapply I, madd_in. do 4 right. eauto.
    Qed.

    Hypothesis (LAST : nl = false -> forall a, S a < nn -> m_lt m a (nn - 1)).
    Lemma meth_free x : qpre o c -> In x raw -> c (ST (skip j x)) = 0.
    Proof. intros PR I. apply (PR (ST (skip j x), 0)). unfold meth_q. cbn [fst]. apply in_or_app. right. unfold fresh_q. destruct raw as [|y r]; [destruct I|]. apply in_or_app. left. now apply (in_map (fun x => (ST (skip j x), 0))). Qed.
    Lemma meth_ready : qpre o c -> ready c j (m_task m + 2).
    Proof. intros PR. apply ready_iff; auto. intros p I. apply PR. unfold meth_q. cbn [fst]. apply in_or_app. auto. Qed.
    Lemma meth_ok : ok c -> qpre o c -> ok c' /\ (exists f, iso f (decF (net pgb c) [j] m) (net pgb c')) /\ minimal (net pgb c) [j] /\ c (ST j) = m_task m + 2.
    Proof.
      intros [C R B] PR. assert (RD := meth_ready PR). assert (NE : forall k, ~ edge pgb c k j) by (intros k; eapply ready_edge; eauto). assert (OC : c (ST j) = m_task m + 2) by apply RD.
      assert (PN : forall a, a < nn -> c (ST (posn a)) = 0 \/ (nl = false /\ S a = nn /\ posn a = j)).
      { intros a La. destruct (posn_raw a La) as [X|(x & I & ->)]; auto. left. now apply meth_free. }
      assert (PJ : forall a, a < nn -> nl = true -> posn a <> j) by (intros a La NL E; destruct (posn_raw a La) as [(X & _)|(x & I & X)]; [congruence|rewrite X in E; now apply skip_ne in E]).
      assert (HE : forall k q, edge pgb c' k q <-> edge pgb c k q \/ (exists a b, In (a, b) (m_ord m) /\ k = posn a /\ q = posn b) \/ (nl = true /\ exists a, a < nn /\ k = posn a /\ q = j)).
      { intros k q. split.
        - intros (Lk & Lq & N & E). destruct (meth_sc k q) as [(_ & [X|X])|(X & _)]; auto. left. repeat split; auto. congruence.
        - intros [(Lk & Lq & N & E)|[(a & b & I & -> & ->)|(NL & a & La & -> & ->)]].
          + repeat split; auto. destruct (meth_sc k q) as [(X & _)|(X & _)]; congruence.
          + assert (X := OR a b I). repeat split; try (apply posn_lt; lia); [intros E; apply posn_inj in E; lia|]. destruct (meth_sc (posn a) (posn b)) as [(Y & _)|(_ & _ & Y)]; auto. exfalso. eauto 6.
          + repeat split; auto; [now apply posn_lt|]. destruct (meth_sc (posn a) j) as [(Y & _)|(_ & Y & _)]; auto. exfalso. eauto 8. }
      assert (HP : forall a, a < nn -> c' (ST (posn a)) = nth a (m_subs m) 0 + 2).
      { intros a La. destruct (meth_st (posn a) (posn_lt a La)) as [(b & Lb & E & X)|[(NL & E & _)|(X & _)]]; [apply posn_inj in E; auto; now subst| |exfalso; now apply (X a)]. exfalso. now apply (PJ a). }
      assert (HJ : nl = true -> c' (ST j) = 1).
      { intros NL. destruct (meth_st j Lj) as [(b & Lb & E & X)|[(_ & _ & X)|(_ & X & _)]]; auto; [exfalso; now apply (PJ b)|exfalso; now apply X]. }
      assert (HO : forall p, p < pgb -> p <> j -> (forall a, a < nn -> p <> posn a) -> c' (ST p) = c (ST p)).
      { intros p Lp Np H. destruct (meth_st p Lp) as [(b & Lb & E & X)|[(_ & X & _)|(_ & _ & X)]]; auto; [exfalso; now apply (H b)|contradiction]. }
      split; [split|split; [|split]].
      - eapply (dec_clean pgb c c' j m nl posn); eauto using posn_lt, posn_inj, posn_last.
      - eapply (dec_ranked pgb c c' j m nl posn); eauto using posn_lt, posn_inj, posn_last.
      - intros k q Lk Lq N. destruct (meth_sc k q) as [(-> & _)|(-> & _)]; [lia|]. now apply B.
      - eapply (net_dec pgb c c' j m nl posn); eauto using posn_lt, posn_inj, posn_last.
      - apply net_minimal; auto. lia.
      - exact OC.
    Qed.
  End Meth.
End Sys.
