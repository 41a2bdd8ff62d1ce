(** Proofs about transition relations: image and preimage. *)
From Coq Require Import Sorting.Sorted.
From Verif Require Import Base Htn_problem Htn_spec Sas_spec Sas_proof Bdd_model Bdd_spec Bdd_proof.

(** ** Operations of the package *)

Definition proper (f : bdd) : Prop := forall r r', (forall v, r v = r' v) -> f r = f r'.

Lemma exq_proper vs f : proper f -> proper (exq vs f).
Proof.
  intros H. induction vs as [|v l IH]; [exact H|]. intros r r' E. cbn [exq].
  f_equal; apply IH; intros u; unfold put; destruct (u =? v); auto.
Qed.
Lemma exq_iff f vs : proper f -> forall r, exq vs f r = true <-> exists r', (forall v, ~ In v vs -> r' v = r v) /\ f r' = true.
Proof.
  intros HP. induction vs as [|v l IH]; intros r; cbn [exq].
  - split; [intros H; exists r; auto|]. intros (r' & E & F). rewrite <- F. apply HP. intros u. symmetry. apply E. intros [].
  - rewrite orb_true_iff, !IH. split.
    + intros [(r' & E & F)|(r' & E & F)]; exists r'; (split; [|exact F]); intros u N; rewrite E by (intros K; apply N; now right);
        unfold put; destruct (u =? v) eqn:Q; auto; apply Nat.eqb_eq in Q; subst u; exfalso; apply N; now left.
    + intros (r' & E & F). destruct (r' v) eqn:Q; [left|right]; exists r'; (split; [|exact F]); intros u N; unfold put;
        (destruct (u =? v) eqn:Z; [apply Nat.eqb_eq in Z; subst u; exact Q|apply Nat.eqb_neq in Z; apply E; intros [K|K]; [congruence|contradiction]]).
Qed.

(** ** Exchange of current and next variables *)

Lemma sw_pre L v : (forall x, In x L -> x mod 3 = 0) -> In v L -> sw L (map (fun x => x + 1) L) v = v + 1.
Proof.
  induction L as [|x L IH]; intros M H; [destruct H|]. cbn [sw map]. destruct (v =? x) eqn:Q; [apply Nat.eqb_eq in Q; now subst|].
  apply Nat.eqb_neq in Q. destruct H as [->|H]; [congruence|].
  assert (v mod 3 = 0) by (apply M; now right). assert (x mod 3 = 0) by (apply M; now left).
  destruct (v =? x + 1) eqn:Z; [apply Nat.eqb_eq in Z; subst v; exfalso; rewrite <- Nat.add_mod_idemp_l in H0 by lia; rewrite H1 in H0; discriminate|].
  apply IH; [intros y Y; apply M; now right|exact H].
Qed.
Lemma sw_eff L v : (forall x, In x L -> x mod 3 = 0) -> In v L -> sw L (map (fun x => x + 1) L) (v + 1) = v.
Proof.
  induction L as [|x L IH]; intros M H; [destruct H|]. cbn [sw map].
  assert (V : v mod 3 = 0) by (apply M; exact H). assert (X : x mod 3 = 0) by (apply M; now left).
  destruct (v + 1 =? x) eqn:Z; [apply Nat.eqb_eq in Z; subst x; exfalso; rewrite <- Nat.add_mod_idemp_l in X by lia; rewrite V in X; discriminate|].
  destruct (v + 1 =? x + 1) eqn:Q; [apply Nat.eqb_eq in Q; lia|]. apply Nat.eqb_neq in Q.
  destruct H as [->|H]; [lia|]. apply IH; [intros y Y; apply M; now right|exact H].
Qed.
Lemma sw_other L v : ~ In v L -> (forall x, In x L -> v <> x + 1) -> sw L (map (fun x => x + 1) L) v = v.
Proof.
  induction L as [|x L IH]; intros N N'; [reflexivity|]. cbn [sw map].
  destruct (v =? x) eqn:Q; [apply Nat.eqb_eq in Q; subst; exfalso; apply N; now left|].
  destruct (v =? x + 1) eqn:Z; [apply Nat.eqb_eq in Z; exfalso; apply (N' x (or_introl eq_refl)); exact Z|].
  apply IH; [intros K; apply N; now right|intros y Y; apply N'; now right].
Qed.

(** ** The map of effects *)

Definition msorted {A} (m : list (nat * A)) : Prop := StronglySorted lt (map fst m).
Lemma mput_in {A} (m : list (nat * A)) k x p : msorted m -> (In p (mput m k x) <-> p = (k, x) \/ (fst p <> k /\ In p m)).
Proof.
  unfold msorted. induction m as [|(k', x') m IH]; intros SO; cbn [mput].
  - cbn. intuition.
  - cbn [map fst] in SO. inversion SO as [|? ? SO' FA]; subst. rewrite Forall_forall in FA.
    assert (GT : forall q, In q m -> k' < fst q) by (intros q Q; apply FA; now apply in_map).
    destruct (k <? k') eqn:Q1; [|destruct (k =? k') eqn:Q2].
    + apply Nat.ltb_lt in Q1. cbn [In]. split; [intros [H|[H|H]]; [left; congruence| |]|].
      * right. subst p. cbn [fst]. split; [lia|now left].
      * right. pose proof (GT p H). split; [lia|now right].
      * intros [->|(_ & H)]; [now left|now right].
    + apply Nat.eqb_eq in Q2. subst k'. cbn [In]. split; [intros [H|H]; [left; congruence|right; pose proof (GT p H); split; [lia|now right]]|].
      intros [->|(N & [H|H])]; [now left| |now right]. subst p. now destruct N.
    + apply Nat.eqb_neq in Q2. apply Nat.ltb_ge in Q1. cbn [In]. rewrite (IH SO'). split.
      * intros [H|[H|(N & H)]]; [subst p; right; cbn [fst]; split; [lia|now left]|now left|right; split; [exact N|now right]].
      * intros [->|(N & [H|H])]; [right; now left|now left|right; right; now split].
Qed.
Lemma mput_keys {A} (m : list (nat * A)) k x y : In y (map fst (mput m k x)) -> y = k \/ In y (map fst m).
Proof.
  induction m as [|(k', x') m IH]; cbn [mput map fst].
  - cbn. intuition.
  - destruct (k <? k'); [cbn; intuition|]. destruct (k =? k'); [cbn; intuition|]. cbn [map fst In]. intuition.
Qed.
Lemma mput_sorted {A} (m : list (nat * A)) k x : msorted m -> msorted (mput m k x).
Proof.
  unfold msorted. induction m as [|(k', x') m IH]; intros SO; cbn [mput map fst]; [repeat constructor|].
  cbn [map fst] in SO. inversion SO as [|? ? SO' FA]; subst.
  destruct (k <? k') eqn:Q1; [|destruct (k =? k') eqn:Q2]; cbn [map fst].
  - apply Nat.ltb_lt in Q1. constructor; [exact SO|]. constructor; [exact Q1|]. eapply Forall_impl; [|exact FA]. cbn. lia.
  - apply Nat.eqb_eq in Q2. subst. now constructor.
  - apply Nat.eqb_neq in Q2. apply Nat.ltb_ge in Q1. constructor; [apply IH; exact SO'|]. apply Forall_forall. intros y Y. apply mput_keys in Y as [->|Y]; [lia|].
    rewrite Forall_forall in FA. now apply FA.
Qed.
Lemma msorted_fun {A} (m : list (nat * A)) k x y : msorted m -> In (k, x) m -> In (k, y) m -> x = y.
Proof.
  unfold msorted. induction m as [|(k', x') m IH]; intros SO H H'; [destruct H|]. cbn [map fst] in SO. inversion SO as [|? ? SO' FA]; subst. rewrite Forall_forall in FA.
  assert (GT : forall z, In (k, z) m -> k' < k) by (intros z Z; apply FA; apply (in_map fst _ _ Z)).
  destruct H as [E|H], H' as [E'|H']; [congruence| | |eauto].
  - pose proof (GT _ H'). injection E as -> _. lia.
  - pose proof (GT _ H). injection E' as -> _. lia.
Qed.

Section Trans.
  Variable V : list (nat * nat).
  Variable n : nat.
  Hypothesis INT : intervals 0 V n.

  Definition by_del (del : list nat) (i : nat) : Prop := single V i /\ exists b, In b del /\ of_var V i b.
  Definition by_add (add : list nat) (i : nat) : Prop := exists b, In b add /\ of_var V i b.
  Definition sets (i d : nat) (f : bdd) : Prop := forall r, f r = true <-> value r (eff_index V i) = d.
  Definition clears (i : nat) (f : bdd) : Prop := forall r, f r = true <-> value r (eff_index V i) <> 0.

  Lemma add_fold add : (forall b, In b add -> b < n) -> forall e, msorted e -> exists e',
    ofold (fun e b => x <- var_of 0 V b ;; f <- eff_bdd V (fst x) (snd x) ;; Some (mput e (fst x) f)) add e = Some e' /\ msorted e' /\
    (forall i, In i (map fst e') <-> In i (map fst e) \/ by_add add i) /\
    (forall i f, In (i, f) e' -> (In (i, f) e /\ ~ by_add add i) \/ exists b d, In b add /\ fact_of V i d b /\ sets i d f).
  Proof.
    induction add as [|b add IH]; intros R e SO; cbn [ofold].
    - exists e. split; [reflexivity|]. split; [exact SO|]. split; [intros i; split; [now left|intros [H|(b & [] & _)]; exact H]|].
      intros i f H. left. split; [exact H|]. intros (b & [] & _).
    - destruct (fact_ex V n INT b (R b (or_introl eq_refl))) as (i & d & F). rewrite (vof V n INT _ _ _ F). cbn [obind fst snd].
      destruct (eff_bdd_some V i d b F) as (f & E). rewrite E. cbn [obind].
      destruct (IH (fun b' H => R b' (or_intror H)) (mput e i f) (mput_sorted e i f SO)) as (e' & E1 & SO' & K & H). exists e'. split; [exact E1|]. split; [exact SO'|].
      assert (KEY : forall j, In j (map fst (mput e i f)) <-> j = i \/ In j (map fst e)).
      { intros j. split; [apply mput_keys|]. intros [->|J].
        - apply in_map_iff. exists (i, f). split; [reflexivity|]. apply mput_in; [exact SO|now left].
        - destruct (Nat.eq_dec j i) as [->|N]; [apply in_map_iff; exists (i, f); split; [reflexivity|]; apply mput_in; [exact SO|now left]|].
          apply in_map_iff in J as (p & <- & P). apply in_map_iff. exists p. split; [reflexivity|]. apply mput_in; [exact SO|]. right. auto. }
      split.
      + intros j. rewrite K, KEY. split.
        * intros [[->|J]|(b' & B & O)]; [right; exists b; split; [now left|now exists d]|now left|right; exists b'; split; [now right|exact O]].
        * intros [J|(b' & [<-|B] & O)]; [left; now right| |right; now exists b'].
          destruct O as (d' & O). destruct (fact_of_inj V 0 n i d b j d' INT F O) as (-> & _). left. now left.
      + intros j g J. destruct (H j g J) as [(J1 & J2)|(b' & d' & B & O & SE)].
        * apply mput_in in J1 as [J1|(N & J1)]; [|cbn [fst] in N|exact SO].
          -- injection J1 as -> ->. right. exists b, d. split; [now left|]. split; [exact F|]. intros r. exact (eff_bdd_val V i d b f r F E).
          -- left. split; [exact J1|]. intros (b' & [<-|B] & O); [|apply J2; now exists b'].
             destruct O as (d' & O). destruct (fact_of_inj V 0 n i d b j d' INT F O) as (-> & _). now apply N.
        * right. exists b', d'. split; [now right|]. auto.
  Qed.

  Lemma strips_single i d b v : fact_of V i d b -> get V i = Some v -> (is_strips v = true <-> single V i).
  Proof.
    intros F E. unfold is_strips, single, get in *. rewrite Nat.eqb_eq. destruct v as (x, y). cbn [fst snd]. split.
    - intros ->. eauto.
    - intros (f & E'). rewrite E in E'. now injection E' as -> ->.
  Qed.

  Lemma del_fold del : (forall b, In b del -> b < n) -> forall e, msorted e -> exists e',
    ofold (fun e b => x <- var_of 0 V b ;; v <- get V (fst x) ;;
             if is_strips v then f <- eff_bdd V (fst x) (snd x) ;; Some (mput e (fst x) (neg f)) else Some e) del e = Some e' /\ msorted e' /\
    (forall i, In i (map fst e') <-> In i (map fst e) \/ by_del del i) /\
    (forall i f, In (i, f) e' -> (In (i, f) e /\ ~ by_del del i) \/ (by_del del i /\ clears i f)).
  Proof.
    induction del as [|b del IH]; intros R e SO; cbn [ofold].
    - exists e. split; [reflexivity|]. split; [exact SO|]. split; [intros i; split; [now left|intros [H|(_ & b & [] & _)]; exact H]|].
      intros i f H. left. split; [exact H|]. intros (_ & b & [] & _).
    - destruct (fact_ex V n INT b (R b (or_introl eq_refl))) as (i & d & F). rewrite (vof V n INT _ _ _ F). cbn [obind fst snd].
      pose proof F as (x & y & EV & _). unfold get at 1. rewrite EV. cbn [obind].
      destruct (is_strips (x, y)) eqn:ST.
      + apply (strips_single i d b _ F EV) in ST.
        destruct (eff_bdd_some V i d b F) as (f & E). rewrite E. cbn [obind].
        destruct (IH (fun b' H => R b' (or_intror H)) (mput e i (neg f)) (mput_sorted e i (neg f) SO)) as (e' & E1 & SO' & K & H). exists e'. split; [exact E1|]. split; [exact SO'|].
        assert (KEY : forall j, In j (map fst (mput e i (neg f))) <-> j = i \/ In j (map fst e)).
        { intros j. split; [apply mput_keys|]. intros [->|J].
          - apply in_map_iff. exists (i, neg f). split; [reflexivity|]. apply mput_in; [exact SO|now left].
          - destruct (Nat.eq_dec j i) as [->|N]; [apply in_map_iff; exists (i, neg f); split; [reflexivity|]; apply mput_in; [exact SO|now left]|].
            apply in_map_iff in J as (p & <- & P). apply in_map_iff. exists p. split; [reflexivity|]. apply mput_in; [exact SO|]. right. auto. }
        assert (BD : by_del (b :: del) i) by (split; [exact ST|]; exists b; split; [now left|now exists d]).
        split.
        * intros j. rewrite K, KEY. split.
          -- intros [[->|J]|(SI & b' & B & O)]; [right; exact BD|now left|right; split; [exact SI|]; exists b'; split; [now right|exact O]].
          -- intros [J|(SI & b' & [<-|B] & O)]; [left; now right| |right; split; [exact SI|now exists b']].
             destruct O as (d' & O). destruct (fact_of_inj V 0 n i d b j d' INT F O) as (-> & _). left. now left.
        * intros j g J. destruct (H j g J) as [(J1 & J2)|((SI & b' & B & O) & CL)].
          -- apply mput_in in J1 as [J1|(N & J1)]; [|cbn [fst] in N|exact SO].
             ++ injection J1 as -> ->. right. split; [exact BD|]. intros r. unfold neg. pose proof (eff_bdd_val V i d b f r F E) as Q.
                pose proof (single_fact V i d b ST F) as ->. destruct (f r); cbn [negb]; intuition (try discriminate).
             ++ left. split; [exact J1|]. intros (SI & b' & [<-|B] & O); [|apply J2; split; [exact SI|now exists b']].
                destruct O as (d' & O). destruct (fact_of_inj V 0 n i d b j d' INT F O) as (-> & _). now apply N.
          -- right. split; [|exact CL]. split; [exact SI|]. exists b'. split; [now right|exact O].
      + assert (NS : ~ single V i) by (intros SI; apply (strips_single i d b _ F EV) in SI; congruence).
        cbn [obind]. destruct (IH (fun b' H => R b' (or_intror H)) e SO) as (e' & E1 & SO' & K & H). exists e'. split; [exact E1|]. split; [exact SO'|].
        assert (BB : forall j, by_del (b :: del) j <-> by_del del j).
        { intros j. split; intros (SI & b' & B & O); (split; [exact SI|]).
          - destruct B as [<-|B]; [|now exists b']. destruct O as (d' & O). destruct (fact_of_inj V 0 n i d b j d' INT F O) as (-> & _). contradiction.
          - exists b'. split; [now right|exact O]. }
        split; [intros j; rewrite K, BB; reflexivity|]. intros j g J. destruct (H j g J) as [(J1 & J2)|(J1 & CL)]; [left; split; [exact J1|]; now rewrite BB|right; split; [now apply BB|exact CL]].
  Qed.

  Lemma fold_conj l : forall (t0 : bdd) r, fold_left (fun t (kf : nat * bdd) => conj t (snd kf)) l t0 r = true <-> t0 r = true /\ forall kf, In kf l -> snd kf r = true.
  Proof.
    induction l as [|kf l IH]; intros t0 r; cbn [fold_left].
    - split; [intros H; split; [exact H|intros kf []]|tauto].
    - rewrite IH. unfold conj. rewrite andb_true_iff. split; [intros ((A & B) & C); split; [exact A|]; intros q [<-|Q]; auto|].
      intros (A & B). split; [split; [exact A|apply B; now left]|]. intros q Q. apply B. now right.
  Qed.

  (** What the transition relation of an action says. *)
  Record trel_ok (prec add del : list nat) (t : trel) (ks : list nat) (C : nat -> nat -> Prop) : Prop := {
    to_s : t_s t = flat_map (pre_index V) ks;
    to_sp : t_sp t = map (fun x => x + 1) (t_s t);
    to_keys : forall i, In i ks <-> by_add add i \/ by_del del i;
    to_bdd : forall r, t_bdd t r = true <-> (forall b, In b prec -> shown V r b) /\ forall i, In i ks -> C i (value r (eff_index V i));
    to_eff : forall i, In i ks -> (by_del del i /\ forall x, x < 2 ^ length (eff_index V i) -> (C i x <-> x <> 0)) \/
      (~ by_del del i /\ exists b d, In b add /\ fact_of V i d b /\ forall x, x < 2 ^ length (eff_index V i) -> (C i x <-> x = d)) }.

  Lemma value_realised idx : NoDup idx -> forall x, x < 2 ^ length idx -> exists r, value r idx = x.
  Proof.
    induction idx as [|v l IH]; intros ND x L; cbn [length Nat.pow] in L.
    - exists (fun _ => false). cbn. lia.
    - inversion ND as [|? ? N ND']; subst. destruct (IH ND' (x / 2)) as (r & E); [apply Nat.div_lt_upper_bound; lia|].
      exists (fun u => if u =? v then Nat.odd x else r u). cbn [value]. rewrite Nat.eqb_refl.
      rewrite (value_ext _ r l), E.
      + pose proof (Nat.div2_odd x) as Q. rewrite Nat.div2_div in Q. destruct (Nat.odd x); cbn [Nat.b2n] in Q; lia.
      + intros u U. destruct (u =? v) eqn:Z; [apply Nat.eqb_eq in Z; subst; contradiction|reflexivity].
  Qed.
  Lemma pre_index_nodup i : NoDup (pre_index V i).
  Proof.
    destruct (nth_error V i) as [v|] eqn:E.
    - unfold pre_index. destruct (indices_nth V 0 i v E) as (m & -> & _). apply FinFun.Injective_map_NoDup; [intros a b; lia|apply seq_NoDup].
    - apply nth_error_None in E. rewrite pre_index_out by exact E. constructor.
  Qed.
  Lemma eff_index_nodup i : NoDup (eff_index V i).
  Proof. apply FinFun.Injective_map_NoDup; [intros a b; lia|apply pre_index_nodup]. Qed.

  Lemma tr_ok prec add del : (forall b, In b prec \/ In b add \/ In b del -> b < n) ->
    exists t ks C, tr_init V prec add del = Some t /\ trel_ok prec add del t ks C.
  Proof.
    intros R. unfold tr_init. destruct (partial_ok V n INT prec (fun b H => R b (or_introl H))) as (t0 & -> & T0). cbn [obind].
    destruct (add_fold add (fun b H => R b (or_intror (or_introl H))) [] ltac:(constructor)) as (e1 & -> & SO1 & K1 & H1). cbn [obind].
    destruct (del_fold del (fun b H => R b (or_intror (or_intror H))) e1 SO1) as (e2 & -> & SO2 & K2 & H2). cbn [obind].
    assert (ALT : forall i f, In (i, f) e2 -> (by_del del i /\ clears i f) \/ (~ by_del del i /\ exists b d, In b add /\ fact_of V i d b /\ sets i d f)).
    { intros i f H. destruct (H2 i f H) as [(A & B)|A]; [|now left]. right. split; [exact B|]. destruct (H1 i f A) as [([] & _)|Q]. exact Q. }
    eexists _, (map fst e2), (fun i x => exists f r, In (i, f) e2 /\ value r (eff_index V i) = x /\ f r = true). split; [reflexivity|].
    constructor; cbn [t_s t_sp t_bdd].
    - reflexivity.
    - unfold eff_index. clear. induction (map fst e2) as [|k l IH]; cbn; [reflexivity|]. now rewrite map_app, IH.
    - intros i. rewrite K2, K1. cbn. intuition.
    - intros r. rewrite fold_conj, T0. split; intros (A & B); (split; [exact A|]).
      + intros i I. apply in_map_iff in I as ((k, f) & <- & I). exists f, r. split; [exact I|]. split; [reflexivity|]. apply (B (k, f)). now rewrite <- in_rev.
      + intros (i, f) I. rewrite <- in_rev in I. cbn [snd]. destruct (B i (in_map fst _ _ I)) as (f' & r' & I' & E & F).
        rewrite <- (msorted_fun e2 i f f' SO2 I I') in F. destruct (ALT i f I) as [(_ & CL)|(_ & b & d & _ & _ & SE)].
        * apply CL. rewrite <- E. now apply CL.
        * apply SE. rewrite <- E. now apply SE.
    - intros i I. apply in_map_iff in I as ((k, f) & <- & I). cbn [fst].
      destruct (ALT k f I) as [(D & CL)|(D & b & d & B & F & SE)]; [left; split; [exact D|]|right; split; [exact D|]; exists b, d; split; [exact B|]; split; [exact F|]].
      + intros x X. split.
        * intros (f' & r & I' & E & Q). rewrite <- (msorted_fun e2 k f f' SO2 I I') in Q. apply CL in Q. now subst x.
        * intros N. destruct (value_realised (eff_index V k) (eff_index_nodup k) x X) as (r & E). exists f, r. split; [exact I|]. split; [exact E|]. apply CL. now rewrite E.
      + intros x X. split.
        * intros (f' & r & I' & E & Q). rewrite <- (msorted_fun e2 k f f' SO2 I I') in Q. apply SE in Q. now subst x.
        * intros N. destruct (value_realised (eff_index V k) (eff_index_nodup k) x X) as (r & E). exists f, r. split; [exact I|]. split; [exact E|]. apply SE. now rewrite E.
  Qed.
End Trans.
