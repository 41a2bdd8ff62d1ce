(** Translation to SAS+: actions and sequences of leading primitive tasks in both representations. *)
From Verif Require Import Base Htn_problem Htn_spec To_spec Sas_model Sas_spec Sas_proof Sas_sim.

(** ** Assignments *)

Definition fassign (es : list (nat * nat)) (v : list nat) : list nat := fold_left (fun s e => assign s (fst e) (snd e)) es v.

Lemma assign_length s : forall v d, length (assign s v d) = length s.
Proof. induction s as [|x s IH]; intros [|v] d; cbn; auto. Qed.
Lemma nth_assign s : forall v d i, nth_error (assign s v d) i = if (v =? i) && (i <? length s) then Some d else nth_error s i.
Proof.
  induction s as [|x s IH]; intros [|v] d [|i]; cbn [assign nth_error length]; try reflexivity.
  - cbn. now rewrite andb_false_r.
  - rewrite IH. reflexivity.
Qed.
Lemma fassign_length es : forall v, length (fassign es v) = length v.
Proof. induction es as [|e es IH]; intros v; cbn; [reflexivity|]. unfold fassign in IH. rewrite IH. apply assign_length. Qed.
Lemma fassign_app l1 l2 v : fassign (l1 ++ l2) v = fassign l2 (fassign l1 v).
Proof. apply fold_left_app. Qed.
Lemma last_val_acc i l : forall acc, last_val i l acc = match last_val i l None with Some d => Some d | None => acc end.
Proof.
  induction l as [|[v d] l IH]; intros acc; cbn; [reflexivity|]. rewrite IH, (IH (if v =? i then Some d else None)). destruct (last_val i l None); [reflexivity|]. now destruct (v =? i).
Qed.
Lemma last_val_in i l d : last_val i l None = Some d -> In (i, d) l.
Proof.
  induction l as [|[v x] l IH]; cbn; [discriminate|]. rewrite last_val_acc. destruct (last_val i l None) as [y|]; [intros [= ->]; right; now apply IH|]. destruct (Nat.eqb_spec v i) as [->|]; [intros [= ->]; now left|discriminate].
Qed.
Lemma last_val_none i l : last_val i l None = None -> forall d, ~ In (i, d) l.
Proof.
  induction l as [|[v x] l IH]; cbn; [auto|]. rewrite last_val_acc. destruct (last_val i l None) as [y|]; [discriminate|]. destruct (Nat.eqb_spec v i) as [->|N]; [discriminate|]. intros _ d [[= -> ->]|H]; [auto|eapply IH; eauto].
Qed.
Lemma nth_fassign es : forall v i, nth_error (fassign es v) i = match last_val i es None with Some d => if i <? length v then Some d else None | None => nth_error v i end.
Proof.
  induction es as [|[w d] es IH]; intros v i; [reflexivity|]. unfold fassign. cbn [fold_left last_val fst snd]. fold (fassign es (assign v w d)). rewrite IH, (last_val_acc i es (if w =? i then Some d else None)), assign_length.
  destruct (last_val i es None) as [y|]; [reflexivity|]. rewrite nth_assign. destruct (w =? i); cbn [andb]; [|reflexivity]. destruct (Nat.ltb_spec i (length v)) as [L|L]; [reflexivity|]. now apply nth_error_None.
Qed.
Lemma nth_error_ext {A} (l1 : list A) : forall l2, length l1 = length l2 -> (forall i, i < length l1 -> nth_error l1 i = nth_error l2 i) -> l1 = l2.
Proof.
  induction l1 as [|x l1 IH]; intros [|y l2] L H; cbn in L; try discriminate; [reflexivity|]. f_equal; [specialize (H 0 ltac:(cbn; lia)); cbn in H; congruence|].
  apply IH; [lia|]. intros i Li. apply (H (S i)). cbn. lia.
Qed.

(** ** One variable *)

(** The facts of one variable required and set by a sequence of tasks. *)
Fixpoint vok (l : list (option nat * option nat)) (x : nat) : Prop :=
  match l with
  | [] => True
  | (p, a) :: r => (forall q, p = Some q -> x = q) /\ vok r (match a with Some e => e | None => x end)
  end.
Fixpoint vfin (l : list (option nat * option nat)) (x : nat) : nat :=
  match l with
  | [] => x
  | (p, a) :: r => vfin r (match a with Some e => e | None => x end)
  end.
Definition agree (l : list (option nat * option nat)) : Prop :=
  forall l1 q a l2 q' a' l3, l = l1 ++ (Some q, a) :: l2 ++ (Some q', a') :: l3 -> a = None -> (forall t, In t (l1 ++ l2) -> snd t = None) -> q = q'.

Lemma scan_none l : forall st en y, (forall e, en = Some e -> y = e) -> scan l st en = None -> ~ vok l y.
Proof.
  induction l as [|[p a] l IH]; intros st en y H E V; cbn [scan vok] in *; [discriminate|]. destruct V as [Vp V]. destruct en as [e|].
  - specialize (H e eq_refl). subst y. destruct p as [q|]; [assert (Q := Vp q eq_refl); subst q; rewrite Nat.eqb_refl in E|]; (revert V; eapply IH; [|exact E]); intros z; destruct a as [w|]; congruence.
  - revert V. eapply IH; [|exact E]. intros z. destruct a as [w|]; congruence.
Qed.
Lemma scan_fin l : forall st en st' en' x y, (forall e, en = Some e -> y = e) -> (en = None -> y = x) -> scan l st en = Some (st', en') -> vfin l y = match en' with Some e => e | None => x end.
Proof.
  induction l as [|[p a] l IH]; intros st en st' en' x y H1 H2 E; cbn [scan vfin] in *.
  - injection E as <- <-. destruct en; auto.
  - destruct en as [e|].
    + assert (E' : scan l st (match a with Some _ => a | None => Some e end) = Some (st', en')). { destruct p as [q|]; [|exact E]. destruct (e =? q); [exact E|discriminate]. }
      eapply IH; [| |exact E']; destruct a as [w|]; intros; try congruence. apply H1. congruence.
    + eapply IH; [| |exact E]; destruct a as [w|]; intros; try congruence. apply H2. reflexivity.
Qed.
Lemma scan_start l : forall st en st' en' x y, (forall e, en = Some e -> y = e) -> (en = None -> y = x) -> (forall q, st = Some q -> x = q) -> scan l st en = Some (st', en') -> vok l y -> forall q, st' = Some q -> x = q.
Proof.
  induction l as [|[p a] l IH]; intros st en st' en' x y H1 H2 H3 E V; cbn [scan vok] in *.
  - injection E as <- <-. auto.
  - destruct V as [Vp V]. destruct en as [e|].
    + assert (E' : scan l st (match a with Some _ => a | None => Some e end) = Some (st', en')). { destruct p as [q|]; [|exact E]. destruct (e =? q); [exact E|discriminate]. }
      eapply IH; [| |exact H3|exact E'|exact V]; destruct a as [w|]; intros; try congruence. apply H1. congruence.
    + eapply IH; [| | |exact E|exact V].
      * destruct a as [w|]; intros; congruence.
      * destruct a as [w|]; intros; [congruence|]. auto.
      * destruct st as [s|]; [exact H3|]. intros q ->. rewrite <- H2 by auto. auto.
Qed.
(** [start] takes part in the agreement. *)
Fixpoint agreev (st : option nat) (l : list (option nat * option nat)) : Prop :=
  match l with
  | [] => True
  | (p, a) :: r =>
      (forall q q', st = Some q -> p = Some q' -> q = q') /\
      (a = None -> agreev (match st with None => p | Some _ => st end) r)
  end.
Lemma agree_agreev l : forall st, agree l -> (forall q l1 q' a' l2, st = Some q -> l = l1 ++ (Some q', a') :: l2 -> (forall t, In t l1 -> snd t = None) -> q = q') -> agreev st l.
Proof.
  induction l as [|[p a] l IH]; intros st A H; cbn [agreev]; [exact Logic.I|]. split.
  - intros q q' -> ->. apply (H q [] q' a l eq_refl); auto. intros t [].
  - intros ->. apply IH.
    + intros l1 q a l2 q' a' l3 -> -> N. apply (A ((p, None) :: l1) q None l2 q' a' l3); auto. intros t [<-|T]; auto.
    + intros q l1 q' a' l2 E -> N. destruct st as [s|].
      * injection E as ->. apply (H q ((p, None) :: l1) q' a' l2 eq_refl); auto. intros t [<-|T]; auto.
      * subst p. apply (A [] q None l1 q' a' l2); auto.
Qed.
Lemma scan_ok l : forall st en st' en' x y, (forall e, en = Some e -> y = e) -> (en = None -> y = x) -> (en = None -> agreev st l) -> scan l st en = Some (st', en') ->
  (forall q, st' = Some q -> x = q) -> vok l y.
Proof.
  induction l as [|[p a] l IH]; intros st en st' en' x y H1 H2 H3 E Q; cbn [scan vok agreev] in *; [exact Logic.I|]. destruct en as [e|].
  - assert (E' : scan l st (match a with Some _ => a | None => Some e end) = Some (st', en')). { destruct p as [q|]; [|exact E]. destruct (e =? q); [exact E|discriminate]. }
    split.
    + intros q ->. rewrite (H1 e eq_refl). destruct (Nat.eqb_spec e q); [auto|discriminate].
    + eapply IH; [| | |exact E'|exact Q]; destruct a as [w|]; intros; try congruence. apply H1. congruence.
  - specialize (H2 eq_refl). subst y. destruct (H3 eq_refl) as (A1 & A2). set (st1 := match st with None => p | Some _ => st end) in *.
    assert (K : forall q, st1 = Some q -> st' = Some q).
    { assert (G : forall l st en st' en' q, scan l st en = Some (st', en') -> st = Some q -> st' = Some q).
      { clear. induction l as [|[p a] l IH]; intros st en st' en' q E ->; cbn [scan] in E; [congruence|]. destruct en as [e|]; [destruct p as [r|]; [destruct (e =? r); [|discriminate]|]|]; eapply IH; eauto. }
      intros q Eq. eapply G; eauto. }
    split.
    + intros q ->. apply Q, K. unfold st1. destruct st as [s|]; [|reflexivity]. f_equal. now apply A1.
    + eapply IH; [| | |exact E|exact Q]; destruct a as [w|]; intros; try congruence. auto.
Qed.
Lemma scan_from l : forall st en st' en', scan l st en = Some (st', en') ->
  (forall q, st' = Some q -> st = Some q \/ exists t, In t l /\ fst t = Some q) /\ (forall e, en' = Some e -> en = Some e \/ exists t, In t l /\ snd t = Some e).
Proof.
  induction l as [|[p a] l IH]; intros st en st' en' E; cbn [scan] in E; [injection E as <- <-; auto|].
  assert (G : exists st1, (st1 = st \/ st1 = p) /\ scan l st1 (match a with Some _ => a | None => en end) = Some (st', en')).
  { destruct en as [e|]; [exists st; split; [auto|]; destruct p as [q|]; [destruct (e =? q); [exact E|discriminate]|exact E]|]. exists (match st with None => p | Some _ => st end). split; [destruct st; auto|exact E]. }
  destruct G as (st1 & O & E'). destruct (IH _ _ _ _ E') as (A & B). split.
  - intros q Eq. destruct (A q Eq) as [X|(t & I & X)]; [|right; exists t; split; [now right|auto]]. destruct O as [->| ->]; [auto|right; exists (p, a); split; [now left|auto]].
  - intros e Ee. destruct (B e Ee) as [X|(t & I & X)]; [|right; exists t; split; [now right|auto]]. destruct a as [w|]; [right; exists (p, Some w); split; [now left|auto]|auto].
Qed.

(** ** All variables *)

Section Seq.
  Variables (W : list (nat * nat)) (n : nat).
  Hypothesis IW : intervals 0 W n.

  (** Tasks as lists of facts with their variable and value. *)
  Notation fl := (list (nat * (nat * nat))).
  Definition fl_ok (l : fl) : Prop := forall b i d, In (b, (i, d)) l -> fact_of W i d b.
  Definition fl_fun (l : fl) : Prop := forall b c i d e, In (b, (i, d)) l -> In (c, (i, e)) l -> b = c.
  Definition proj (i : nat) (L : list (fl * fl)) := map (fun t => (last_on i (fst t) None, last_on i (snd t) None)) L.

  Lemma last_on_acc i l : forall acc, last_on i l acc = match last_on i l None with Some d => Some d | None => acc end.
  Proof.
    induction l as [|[b [v d]] l IH]; intros acc; cbn; [reflexivity|]. rewrite IH, (IH (if v =? i then Some b else None)). destruct (last_on i l None); [reflexivity|]. now destruct (v =? i).
  Qed.
  Lemma last_on_val i l : match last_on i l None with
                          | Some b => exists d, In (b, (i, d)) l /\ last_val i (map snd l) None = Some d
                          | None => last_val i (map snd l) None = None /\ forall b d, ~ In (b, (i, d)) l
                          end.
  Proof.
    induction l as [|[c [v d]] l IH]; cbn [last_on map snd last_val]; [split; auto|]. rewrite last_on_acc, last_val_acc. destruct (last_on i l None) as [y|].
    - destruct IH as (d' & I & ->). exists d'. split; [now right|reflexivity].
    - destruct IH as (-> & N). destruct (Nat.eqb_spec v i) as [->|Q]; [exists d; split; [now left|reflexivity]|]. split; [reflexivity|]. intros b e [[= -> -> ->]|I]; [auto|eapply N; eauto].
  Qed.

  Fixpoint sok (L : list (fl * fl)) (v : list nat) : Prop :=
    match L with
    | [] => True
    | (p, a) :: r => (forall x, In x (map snd p) -> holds v x) /\ sok r (fassign (map snd a) v)
    end.
  Fixpoint sfin (L : list (fl * fl)) (v : list nat) : list nat :=
    match L with
    | [] => v
    | (p, a) :: r => sfin r (fassign (map snd a) v)
    end.

  Definition valid (v : list nat) : Prop := length v = length W /\ forall i d, nth_error v i = Some d -> exists x, fact_of W i d x.
  (** [x] is the true fact of variable [i]. *)
  Definition cur (v : list nat) (i x : nat) : Prop := exists d, nth_error v i = Some d /\ fact_of W i d x.

  Lemma cur_fun v i x y : cur v i x -> cur v i y -> x = y.
  Proof. intros (d & E & F) (d' & E' & F'). rewrite E in E'. injection E' as ->. eapply fact_of_fun; eauto. Qed.
  Lemma cur_exists v i : valid v -> i < length W -> exists x, cur v i x.
  Proof. intros [L H] Li. rewrite <- L in Li. destruct (get_some v i Li) as (d & E). destruct (H i d E) as (x & F). exists x, d. auto. Qed.
  Lemma holds_cur v i d b x : fact_of W i d b -> cur v i x -> (holds v (i, d) <-> x = b).
  Proof.
    intros F (d' & E & F'). unfold holds. cbn [fst snd]. rewrite E. split; [intros [= ->]; eapply fact_of_fun; eauto|]. intros ->. f_equal. eapply fact_of_same; eauto.
  Qed.
  Lemma valid_fassign (a : fl) v : fl_ok a -> valid v -> valid (fassign (map snd a) v).
  Proof.
    intros FA [L H]. split; [now rewrite fassign_length|]. intros i d E. rewrite nth_fassign in E. destruct (last_val i (map snd a) None) as [y|] eqn:Q; [|eauto].
    destruct (i <? length v); [|discriminate]. injection E as ->. apply last_val_in in Q. apply in_map_iff in Q as ([b [i' d']] & Eq & I). cbn in Eq. injection Eq as -> ->. exists b. now apply FA in I.
  Qed.
  Lemma cur_fassign (a : fl) v i x : fl_ok a -> cur v i x -> cur (fassign (map snd a) v) i (match last_on i a None with Some e => e | None => x end).
  Proof.
    intros FA (d & E & F). assert (Li : i < length v) by (apply nth_error_Some; congruence). assert (X := last_on_val i a). unfold cur. rewrite nth_fassign. destruct (last_on i a None) as [b|].
    - destruct X as (d' & I & ->). apply Nat.ltb_lt in Li. rewrite Li. exists d'. split; [reflexivity|]. exact (FA _ _ _ I).
    - destruct X as (-> & _). exists d. auto.
  Qed.

  Definition L_ok (L : list (fl * fl)) : Prop := forall t, In t L -> fl_ok (fst t) /\ fl_ok (snd t) /\ fl_fun (fst t).

  Lemma prec_vars p v : fl_ok p -> fl_fun p -> valid v ->
    ((forall x, In x (map snd p) -> holds v x) <-> forall i x, cur v i x -> forall q, last_on i p None = Some q -> x = q).
  Proof.
    intros FP FF VV. split.
    - intros H i x C q E. assert (X := last_on_val i p). rewrite E in X. destruct X as (d & I & _). apply (holds_cur v i d q x); auto. apply H. apply (in_map snd) in I. exact I.
    - intros H [i d] I. apply in_map_iff in I as ([b w] & Ew & I). cbn in Ew. subst w. assert (F := FP _ _ _ I). assert (Li := fact_of_lt _ _ _ _ F). destruct (cur_exists v i VV Li) as (x & C).
      apply (proj2 (holds_cur v i d b x F C)). assert (X := last_on_val i p). destruct (last_on i p None) as [q|] eqn:E; [|destruct X as (_ & N); exfalso; eapply N; eauto].
      destruct X as (d' & I' & _). rewrite (H i x C q E). eapply FF; eauto.
  Qed.

  Lemma seq_vars L : forall v, L_ok L -> valid v ->
    (sok L v <-> forall i x, cur v i x -> vok (proj i L) x) /\ valid (sfin L v) /\ forall i x, cur v i x -> cur (sfin L v) i (vfin (proj i L) x).
  Proof.
    induction L as [|[p a] L IH]; intros v HL VV; cbn [sok sfin proj map vok vfin]; [split; [split; auto|split; auto]|].
    destruct (HL (p, a)) as (FP & FA & FF); [now left|]. cbn [fst snd] in *. assert (V1 := valid_fassign a v FA VV).
    destruct (IH (fassign (map snd a) v)) as (A & B & C); [intros t T; apply HL; now right|exact V1|]. split; [|split; [exact B|]].
    - rewrite (prec_vars p v FP FF VV). split.
      + intros [H1 H2] i x Cx. split; [now apply H1|]. apply (proj1 A H2). now apply cur_fassign.
      + intros H. split; [intros i x Cx; apply H, Cx|]. apply A. intros i y Cy.
        assert (Li : i < length W) by (destruct Cy as (d & _ & F); eapply fact_of_lt; eauto). destruct (cur_exists v i VV Li) as (x & Cx). destruct (H i x Cx) as [_ H2].
        rewrite (cur_fun _ _ _ _ Cy (cur_fassign a v i x FA Cx)). exact H2.
    - intros i x Cx. apply C. now apply cur_fassign.
  Qed.

  (** The combined conditions and effects. *)
  Lemma scan_all_none vs L : scan_all vs L = None -> exists i, In i vs /\ scan (proj i L) None None = None.
  Proof.
    induction vs as [|i vs IH]; cbn [scan_all]; [discriminate|]. fold (proj i L). destruct (scan (proj i L) None None) as [[s e]|] eqn:E; [|intros _; exists i; split; [now left|exact E]].
    cbn [obind]. destruct (scan_all vs L) as [[ps es]|]; [discriminate|]. intros _. destruct IH as (k & I & X); [reflexivity|]. exists k. split; [now right|exact X].
  Qed.
  Lemma scan_all_some vs L ps es : scan_all vs L = Some (ps, es) ->
    (forall i, In i vs -> exists st en, scan (proj i L) None None = Some (st, en) /\ (forall b, st = Some b -> In b ps) /\ (forall b, en = Some b -> In b es)) /\
    (forall b, In b ps -> exists i en, In i vs /\ scan (proj i L) None None = Some (Some b, en)) /\
    (forall b, In b es -> exists i st, In i vs /\ scan (proj i L) None None = Some (st, Some b)).
  Proof.
    revert ps es. induction vs as [|i vs IH]; intros ps es; cbn [scan_all]; [intros [= <- <-]; split; [intros i []|split; intros b []]|]. fold (proj i L). destruct (scan (proj i L) None None) as [[s e]|] eqn:E; [|discriminate].
    cbn [obind]. destruct (scan_all vs L) as [[ps0 es0]|]; [|discriminate]. cbn [obind]. intros [= <- <-]. destruct (IH _ _ eq_refl) as (A & B & C). split; [|split].
    - intros k [<-|I]; [exists s, e; split; [exact E|]; split; intros b ->; apply in_or_app; left; now left|]. destruct (A k I) as (st & en & X & Y & Z). exists st, en. split; [exact X|]. split; intros b Hb; apply in_or_app; right; auto.
    - intros b I. apply in_app_or in I as [I|I]; [destruct s as [q|]; [|destruct I]; destruct I as [->|[]]; exists i, e; split; [now left|exact E]|]. destruct (B b I) as (k & en & X & Y). exists k, en. split; [now right|exact Y].
    - intros b I. apply in_app_or in I as [I|I]; [destruct e as [q|]; [|destruct I]; destruct I as [->|[]]; exists i, s; split; [now left|exact E]|]. destruct (C b I) as (k & st & X & Y). exists k, st. split; [now right|exact Y].
  Qed.
  Lemma proj_fact L i t b : L_ok L -> In t (proj i L) -> fst t = Some b \/ snd t = Some b -> exists d, fact_of W i d b.
  Proof.
    intros HL I H. apply in_map_iff in I as (u & <- & I). destruct (HL u I) as (A & B & _). cbn [fst snd] in H. destruct H as [H|H].
    - assert (X := last_on_val i (fst u)). rewrite H in X. destruct X as (d & J & _). exists d. now apply A.
    - assert (X := last_on_val i (snd u)). rewrite H in X. destruct X as (d & J & _). exists d. now apply B.
  Qed.
  Lemma start_fact L i st en b : L_ok L -> scan (proj i L) None None = Some (st, en) -> st = Some b \/ en = Some b -> exists d, fact_of W i d b.
  Proof.
    intros HL E H. destruct (scan_from _ _ _ _ _ E) as (A & B). destruct H as [->| ->]; [destruct (A b eq_refl) as [|(t & I & X)]|destruct (B b eq_refl) as [|(t & I & X)]]; try discriminate; eapply proj_fact; eauto.
  Qed.

  Variable cv : nat -> option (nat * nat).
  Hypothesis CV : forall b i d, i < length W -> (cv b = Some (i, d) <-> fact_of W i d b).

  Lemma scan_all_ok L ps es v : L_ok L -> valid v -> scan_all (seq 0 (length W)) L = Some (ps, es) ->
    exists pp ee, omap cv ps = Some pp /\ omap cv es = Some ee /\
      (forall i d e, In (i, d) pp -> In (i, e) pp -> d = e) /\ (forall i d, In (i, d) pp -> i < length W) /\ (forall i d, In (i, d) ee -> exists b, fact_of W i d b) /\
      (forall i d, In (i, d) pp -> exists b, fact_of W i d b) /\
      (sok L v -> forall x, In x pp -> holds v x) /\
      ((forall i, agree (proj i L)) -> (forall x, In x pp -> holds v x) -> sok L v) /\
      fassign ee v = sfin L v.
  Proof.
    intros HL VV E. destruct (scan_all_some _ _ _ _ E) as (A & B & C).
    assert (FB : forall b, In b ps \/ In b es -> exists i d, fact_of W i d b).
    { intros b [I|I]; [destruct (B b I) as (i & en & _ & Ei)|destruct (C b I) as (i & st & _ & Ei)]; (destruct (start_fact L i _ _ b HL Ei) as (d & F); [auto|]; exists i, d; exact F). }
    destruct (omap_some cv ps) as (pp & Ep). { intros b I. destruct (FB b) as (i & d & F); auto. exists (i, d). apply CV; auto. eapply fact_of_lt; eauto. }
    destruct (omap_some cv es) as (ee & Ee). { intros b I. destruct (FB b) as (i & d & F); auto. exists (i, d). apply CV; auto. eapply fact_of_lt; eauto. }
    assert (CF : forall b i d i' d', fact_of W i d b -> cv b = Some (i', d') -> i' = i /\ d' = d).
    { intros b i d i' d' F Q. assert (Li := fact_of_lt _ _ _ _ F). apply (proj2 (CV b i d Li)) in F. rewrite F in Q. injection Q as <- <-. auto. }
    assert (PP : forall i d, In (i, d) pp <-> exists b en, i < length W /\ scan (proj i L) None None = Some (Some b, en) /\ fact_of W i d b).
    { intros i d. split.
      - intros I. destruct (omap_in _ _ _ _ Ep I) as (b & J & Q). destruct (B b J) as (k & en & K & Ek). destruct (start_fact L k _ _ b HL Ek) as (d' & F); auto. destruct (CF _ _ _ _ _ F Q). subst. apply in_seq in K. exists b, en. repeat split; auto. lia.
      - intros (b & en & Li & Ei & F). destruct (A i) as (st & en' & Ei' & X & _); [apply in_seq; lia|]. rewrite Ei in Ei'. injection Ei' as <- <-. destruct (omap_in' _ _ _ b Ep (X b eq_refl)) as ([i' d'] & J & Q). destruct (CF _ _ _ _ _ F Q). subst. exact J. }
    assert (EE : forall i d, In (i, d) ee <-> exists b st, i < length W /\ scan (proj i L) None None = Some (st, Some b) /\ fact_of W i d b).
    { intros i d. split.
      - intros I. destruct (omap_in _ _ _ _ Ee I) as (b & J & Q). destruct (C b J) as (k & en & K & Ek). destruct (start_fact L k _ _ b HL Ek) as (d' & F); auto. destruct (CF _ _ _ _ _ F Q). subst. apply in_seq in K. exists b, en. repeat split; auto. lia.
      - intros (b & st & Li & Ei & F). destruct (A i) as (st' & en' & Ei' & _ & X); [apply in_seq; lia|]. rewrite Ei in Ei'. injection Ei' as <- <-. destruct (omap_in' _ _ _ b Ee (X b eq_refl)) as ([i' d'] & J & Q). destruct (CF _ _ _ _ _ F Q). subst. exact J. }
    destruct (seq_vars L v HL VV) as (S1 & S2 & S3). exists pp, ee. split; [exact Ep|]. split; [exact Ee|]. split; [|split; [|split; [|split; [|split; [|split]]]]].
    - intros i d e I1 I2. apply (proj1 (PP _ _)) in I1 as (b & en & _ & E1 & F1). apply (proj1 (PP _ _)) in I2 as (c & en' & _ & E2 & F2). rewrite E1 in E2. injection E2 as <- <-. eapply fact_of_same; eauto.
    - intros i d I. now apply (proj1 (PP _ _)) in I as (b & en & Li & _).
    - intros i d I. apply (proj1 (EE _ _)) in I as (b & en & _ & _ & F). eauto.
    - intros i d I. apply (proj1 (PP _ _)) in I as (b & en & _ & _ & F). eauto.
    - intros K [i d] I. apply (proj1 (PP _ _)) in I as (b & en & Li & Ei & F). destruct (cur_exists v i VV Li) as (x & Cx). apply (proj2 (holds_cur v i d b x F Cx)).
      eapply (scan_start (proj i L) None None _ _ x x); eauto; try discriminate. apply (proj1 S1 K _ _ Cx).
    - intros AG H. apply S1. intros i x Cx. assert (Li : i < length W) by (destruct Cx as (d & _ & F); eapply fact_of_lt; eauto). destruct (A i) as (st & en & Ei & _ & _); [apply in_seq; lia|].
      eapply (scan_ok (proj i L) None None st en x x); eauto; try discriminate.
      + intros _. apply agree_agreev; auto. discriminate.
      + intros q ->. destruct (start_fact L i _ _ q HL Ei) as (d & F); auto. apply (proj1 (holds_cur v i d q x F Cx)). apply H. apply PP. eauto.
    - apply nth_error_ext; [rewrite fassign_length; destruct VV as [-> _]; symmetry; apply S2|]. rewrite fassign_length. intros i Li. assert (LW : i < length W) by (destruct VV as [<- _]; exact Li).
      destruct (cur_exists v i VV LW) as (x & Cx). destruct (S3 i x Cx) as (d & -> & F). destruct (A i) as (st & en & Ei & _ & _); [apply in_seq; lia|].
      assert (SF : vfin (proj i L) x = match en with Some e => e | None => x end) by (eapply scan_fin; [| |exact Ei]; [discriminate|reflexivity]). rewrite SF in F. rewrite nth_fassign. destruct (last_val i ee None) as [z|] eqn:Q.
      + apply last_val_in in Q. apply (proj1 (EE _ _)) in Q as (b & st' & _ & Ei' & F'). rewrite Ei in Ei'. injection Ei' as -> ->. apply Nat.ltb_lt in Li. rewrite Li. f_equal. eapply fact_of_same; eauto.
      + assert (N := last_val_none _ _ Q). destruct en as [b|]; [exfalso; apply (N d), EE; eauto|]. destruct Cx as (d' & E' & F'). rewrite E'. f_equal. eapply fact_of_same; eauto.
  Qed.
End Seq.
