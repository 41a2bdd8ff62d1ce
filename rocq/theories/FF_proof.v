(** hsAddFF: the extraction of a relaxed plan, and facts about relaxed planning. *)
From Verif Require Import Base Heap_model Heap_proof Relax_model Relax_spec Dij Aff_proof.

Lemma finite_choice {A} (P : nat -> A -> Prop) (d : A) (l : list nat) : (forall p, In p l -> exists v, P p v) ->
  exists c, forall p, In p l -> P p (c p).
Proof.
  induction l as [|a l IH]; intros H; [exists (fun _ => d); easy|].
  destruct IH as (c & C). { intros p Hp. apply H. now right. }
  destruct (H a) as (v & V); [now left|].
  exists (fun p => if Nat.eqb p a then v else c p). intros p Hp. destruct (Nat.eqb_spec p a) as [->|N]; auto.
  destruct Hp as [<-|Hp]; [congruence|auto].
Qed.

Section REL.
Variables (nops : nat) (pre add : nat -> list nat) (cost : nat -> nat) (s : list nat).

Lemma rreach_deriv ag f : rreach nops pre add s f <-> exists v, deriv nops pre add cost s ag f v.
Proof.
  split.
  - induction 1 as [f H|op f Ho Hp IH Hf].
    + exists 0. now constructor.
    + destruct (finite_choice _ 0 (pre op) IH) as (c & C). eexists. eapply dv_op; eauto.
  - intros (v & H). induction H as [f H|op f c Ho Hp IH Hf]; [now constructor|eapply rr_op; eauto].
Qed.

(** The state after a relaxed plan. *)
Definition rstate (st : nat -> Prop) (ops : list nat) (f : nat) : Prop := st f \/ exists op, In op ops /\ In f (add op).

Lemma rexec_ext ops : forall st st' out, (forall f, st f <-> st' f) -> rexec nops pre add st ops out -> rexec nops pre add st' ops out.
Proof.
  induction ops as [|op ops IH]; cbn; intros st st' out E H.
  - intros f. now rewrite H.
  - destruct H as (H1 & H2 & H3). repeat split; auto. { intros p Hp. apply E. auto. }
    eapply IH; [|exact H3]. intros f. cbn. now rewrite E.
Qed.

Lemma rexec_out ops : forall st out, rexec nops pre add st ops out -> forall f, out f <-> rstate st ops f.
Proof.
  induction ops as [|op ops IH]; cbn; intros st out H f.
  - rewrite H. unfold rstate. split; auto. intros [?|(? & [] & _)]; auto.
  - destruct H as (_ & _ & H). rewrite (IH _ _ H f). unfold rstate. split.
    + intros [[?|?]|(o & I & F)]; auto; right; [exists op; split; auto; now left|exists o; split; auto; now right].
    + intros [?|(o & [<-|I] & F)]; auto. right. eauto.
Qed.

Lemma rexec_snoc ops op : forall st out, rexec nops pre add st ops out -> op < nops -> (forall p, In p (pre op) -> rstate st ops p) ->
  rexec nops pre add st (ops ++ [op]) (rstate st (ops ++ [op])).
Proof.
  induction ops as [|o ops IH]; cbn; intros st out H Ho Hp.
  - repeat split; auto.
    + intros p I. destruct (Hp p I) as [?|(? & [] & _)]; auto.
    + unfold rstate. intros [?|(x & [<-|[]] & F)]; auto.
    + unfold rstate. intros [?|?]; auto. right. exists op. split; auto. now left.
  - destruct H as (H1 & H2 & H3). split; auto. split; auto.
    assert (EX : forall l f, rstate (fun f => st f \/ In f (add o)) l f <-> rstate st (o :: l) f).
    { intros l f. unfold rstate. split.
      - intros [[?|?]|(x & I & F)]; auto; right; [exists o; split; auto; now left|exists x; split; auto; now right].
      - intros [?|(x & [<-|I] & F)]; auto. right. eauto. }
    eapply IH in H3; eauto. 2:{ intros p I. apply EX. auto. }
    clear - H3 EX. revert H3. generalize (fun f => st f \/ In f (add o)) at 1 3 as st'. intros st' H3.
    assert (OE : forall l a b c, (forall f, b f <-> c f) -> rexec nops pre add a l b -> rexec nops pre add a l c).
    { induction l as [|y l IH]; cbn; intros a b c E H. - intros f. now rewrite <- E. - destruct H as (A1 & A2 & A3). repeat split; auto. eauto. }
    eapply OE; [|exact H3]. intros f. apply EX.
Qed.
End REL.

Section FF.
Variables (m : strips) (s : list nat).
Hypothesis W : strips_wf m.
Hypothesis NPL : no_precless m.
Notation nf := (st_nf m).
Notation nops := (st_nops m).
Notation pre := (m_pre m).
Notation add := (m_add m).
Notation cost := (m_cost m).

Variable rb : list (option nat).
Variable pr : list nat.
Hypothesis LR : length rb = nf.
Hypothesis SR : srcs m s rb pr.
Hypothesis NDpr : NoDup pr.

Definition rbf (f : nat) : option nat := nth f rb None.

Lemma src_in f : In f pr -> f < nf /\ get rb f = Some (rbf f) /\
  match rbf f with None => In f s | Some op => op < nops /\ In f (add op) /\ incl (pre op) pr end.
Proof.
  assert (H : forall l, srcs m s rb l -> In f l -> src m s rb l f).
  { induction l as [|a l IH]; [easy|]. cbn. intros (S1 & S2) [<-|I].
    - eapply src_incl; [|exact S1]. intros y Hy. now right.
    - eapply src_incl; [|apply IH; auto]. intros y Hy. now right. }
  intros I. destruct (H pr SR I) as (r & G & C). pose proof (get_lt _ _ _ G) as L. rewrite LR in L. split; auto.
  assert (E : r = rbf f). { unfold rbf. rewrite (get_nth_d None rb f) in G by lia. congruence. }
  subst r. split; auto. destruct C as [(-> & C)|(op & -> & C)]; auto.
Qed.

Record FInv (st mf mo : list nat) : Prop := {
  fi_st : incl st pr;
  fi_mf : incl mf pr;
  fi_cl : forall f, In f mf -> match rbf f with None => True | Some op => In op mo /\ (forall p, In p (pre op) -> In p mf \/ In p st) end;
  fi_mo : forall op, In op mo -> exists f, In f mf /\ rbf f = Some op;
  fi_nd : NoDup mo;
  fi_ndf : NoDup mf }.

Lemma ff_pushes cap ps : forall st st', ofold (ff_push cap) ps st = Some st' -> st' = rev ps ++ st.
Proof.
  induction ps as [|p ps IH]; cbn; intros st st' H; [congruence|].
  apply obind_some in H as (st1 & E & H). unfold ff_push in E. destruct (Nat.ltb _ _); [|discriminate]. injection E as <-.
  apply IH in H. rewrite H, <- app_assoc. reflexivity.
Qed.

Lemma ff_pushes_ok cap ps : forall st, length st + length ps <= cap -> ofold (ff_push cap) ps st = Some (rev ps ++ st).
Proof.
  induction ps as [|p ps IH]; cbn; intros st H; auto. unfold ff_push at 1.
  rewrite (proj2 (Nat.ltb_lt _ _)) by lia. cbn [obind]. rewrite IH by (cbn; lia). rewrite <- app_assoc. reflexivity.
Qed.

Lemma fi_expand_none f st mf mo : FInv (f :: st) mf mo -> ~ In f mf -> rbf f = None -> FInv st (f :: mf) mo.
Proof.
  intros [A1 A2 A3 A4 A5 A6] N R. constructor; auto.
  - intros y Hy. apply A1. now right.
  - intros y [<-|Hy]; [apply A1; now left|auto].
  - intros y [<-|Hy]; [now rewrite R|]. specialize (A3 y Hy). destruct (rbf y); auto. destruct A3 as (B1 & B2). split; auto.
    intros p Hp. destruct (B2 p Hp) as [?|[<-|?]]; auto; left; [now right|now left].
  - intros op I. destruct (A4 op I) as (f0 & B1 & B2). exists f0. split; auto. now right.
  - constructor; auto.
Qed.

Lemma fi_expand f op st mf mo : FInv (f :: st) mf mo -> ~ In f mf -> rbf f = Some op ->
  FInv (rev (pre op) ++ st) (f :: mf) (if memb op mo then mo else op :: mo).
Proof.
  intros [A1 A2 A3 A4 A5 A6] N R.
  assert (If : In f pr) by (apply A1; now left).
  destruct (src_in f If) as (_ & _ & C). rewrite R in C. destruct C as (C1 & C2 & C3).
  assert (MO : forall o, In o (if memb op mo then mo else op :: mo) <-> In o mo \/ o = op).
  { intros o. destruct (memb op mo) eqn:M; cbn.
    - apply memb_In in M. split; [auto|]. intros [?| ->]; auto.
    - split; intros [?|?]; auto. }
  constructor.
  - intros y Hy. apply in_app_or in Hy as [Hy|Hy]; [apply C3; now apply in_rev|apply A1; now right].
  - intros y [<-|Hy]; auto.
  - intros y [<-|Hy].
    + rewrite R. split; [apply MO; auto|]. intros p Hp. right. apply in_or_app. left. now apply in_rev in Hp.
    + specialize (A3 y Hy). destruct (rbf y); auto. destruct A3 as (B1 & B2). split; [apply MO; auto|].
      intros p Hp. destruct (B2 p Hp) as [?|[<-|?]]; [left; now right|left; now left|right; apply in_or_app; auto].
  - intros o I. apply MO in I as [I| ->].
    + destruct (A4 o I) as (f0 & B1 & B2). exists f0. split; auto. now right.
    + exists f. split; auto. now left.
  - destruct (memb op mo) eqn:M; auto. constructor; auto. now apply memb_false.
  - constructor; auto.
Qed.

Lemma ff_loop_inv : forall fuel st mf mo mf' mo', FInv st mf mo -> ff_loop fuel m rb st mf mo = Some (mf', mo') ->
  FInv [] mf' mo' /\ incl st mf' /\ incl mf mf'.
Proof.
  induction fuel as [|n IH]; intros st mf mo mf' mo' I H; destruct st as [|f st]; cbn in H; try discriminate;
    try (injection H as <- <-; split; [exact I|split; [easy|apply incl_refl]]).
  destruct (memb f mf) eqn:M.
  - apply memb_In in M. destruct (IH st mf mo mf' mo') as (R1 & R2 & R3); auto.
    + destruct I as [A1 A2 A3 A4 A5 A6]. constructor; auto.
      * intros y Hy. apply A1. now right.
      * intros y Hy. specialize (A3 y Hy). destruct (rbf y); auto. destruct A3 as (B1 & B2). split; auto.
        intros p Hp. destruct (B2 p Hp) as [?|[<-|?]]; auto.
    + split; auto. split; auto. intros y [<-|Hy]; auto.
  - apply memb_false in M.
    assert (If : In f pr) by (apply (fi_st _ _ _ I); now left).
    destruct (src_in f If) as (Lf & G & C). rewrite G in H. cbn [obind] in H.
    destruct (rbf f) as [op|] eqn:R.
    + destruct C as (C1 & C2 & C3). rewrite (get_nth_d [] (st_pre m) op) in H by auto. fold (pre op) in H. cbn [obind] in H.
      apply obind_some in H as (st2 & E & H). apply ff_pushes in E. subst st2.
      apply IH in H; [|now apply fi_expand]. destruct H as (R1 & R2 & R3). split; auto. split.
      * intros y [<-|Hy]; [apply R3; now left|apply R2; apply in_or_app; auto].
      * intros y Hy. apply R3. now right.
    + apply IH in H; [|now apply fi_expand_none]. destruct H as (R1 & R2 & R3). split; auto. split.
      * intros y [<-|Hy]; [apply R3; now left|auto].
      * intros y Hy. apply R3. now right.
Qed.

Lemma ff_goals_inv : forall g mf mo mf' mo', incl g pr -> FInv [] mf mo ->
  ofold (fun '(mf, mo) f => st <- ff_push nf [] f ;; ff_loop (ff_fuel m) m rb st mf mo) g (mf, mo) = Some (mf', mo') ->
  FInv [] mf' mo' /\ incl g mf' /\ incl mf mf'.
Proof.
  induction g as [|f g IH]; intros mf mo mf' mo' IG I H; cbn [ofold] in H.
  - injection H as <- <-. split; auto. split; [easy|apply incl_refl].
  - apply obind_some in H as ((mf1 & mo1) & E & H). apply obind_some in E as (st & E1 & E2).
    unfold ff_push in E1. destruct (Nat.ltb _ _); [|discriminate]. injection E1 as <-.
    apply ff_loop_inv in E2 as (R1 & R2 & R3).
    + apply IH in H as (Q1 & Q2 & Q3); auto.
      * split; auto. split; [|intros y Hy; auto]. intros y [<-|Hy]; auto. apply Q3, R2. now left.
      * intros y Hy. apply IG. now right.
    + destruct I as [A1 A2 A3 A4 A5 A6]. constructor; auto.
      * intros y [<-|[]]. apply IG. now left.
      * intros y Hy. specialize (A3 y Hy). destruct (rbf y); auto. destruct A3 as (B1 & B2). split; auto.
        intros p Hp. destruct (B2 p Hp) as [?|[]]; auto.
Qed.

(** The marked operators in the order in which their effects were processed. *)
Fixpoint ffplan (mf l : list nat) : list nat :=
  match l with
  | [] => []
  | f :: t =>
      let p := ffplan mf t in
      if memb f mf then match rbf f with Some op => if memb op p then p else p ++ [op] | None => p end else p
  end.

Lemma ffplan_ok mf mo : FInv [] mf mo -> forall l, srcs m s rb l -> incl l pr ->
  NoDup (ffplan mf l) /\ (exists out, rexec nops pre add (fun f => In f s) (ffplan mf l) out) /\
  (forall f, In f l -> In f mf -> rstate add (fun f => In f s) (ffplan mf l) f) /\
  (forall op, In op (ffplan mf l) <-> exists f, In f l /\ In f mf /\ rbf f = Some op).
Proof.
  intros I. induction l as [|f l IH]; intros S IL.
  - cbn. split; [constructor|]. split; [exists (fun f => In f s); cbn; tauto|]. split; [easy|]. intros op. split; [easy|intros (? & [] & _)].
  - cbn in S. destruct S as (S1 & S2). destruct IH as (R1 & (out & R2) & R3 & R4); auto. { intros y Hy. apply IL. now right. }
    cbn [ffplan]. assert (If : In f pr) by (apply IL; now left). destruct (src_in f If) as (Lf & G & C).
    destruct S1 as (r & G' & S1). rewrite G in G'. injection G' as <-.
    destruct (memb f mf) eqn:M.
    + apply memb_In in M. destruct (rbf f) as [op|] eqn:R.
      * destruct S1 as [(? & _)|(op' & E & Ho & Hf & Hi)]; [discriminate|]. injection E as <-.
        pose proof (fi_cl _ _ _ I f M) as FC. rewrite R in FC. destruct FC as (FC1 & FC2).
        assert (AP : forall p, In p (pre op) -> rstate add (fun f => In f s) (ffplan mf l) p).
        { intros p Hp. apply R3; [now apply Hi|]. destruct (FC2 p Hp) as [?|[]]; auto. }
        destruct (memb op (ffplan mf l)) eqn:MO.
        -- apply memb_In in MO. split; auto. split; eauto. split.
           ++ intros y [<-|Hy] Hm; auto. right. exists op. auto.
           ++ intros o. rewrite R4. split.
              ** intros (y & H1 & H2 & H3). exists y. split; [now right|auto].
              ** intros (y & [<-|H1] & H2 & H3); [|eauto]. rewrite R in H3. injection H3 as <-. apply R4 in MO. exact MO.
        -- apply memb_false in MO. split; [|split; [|split]].
           ++ apply nodup_app_iff. split; auto. split; [repeat constructor; easy|]. intros y Hy [<-|[]]. auto.
           ++ eexists. eapply rexec_snoc; eauto.
           ++ intros y [<-|Hy] Hm.
              ** right. exists op. split; auto. apply in_or_app. right. now left.
              ** destruct (R3 y Hy Hm) as [?|(o & H1 & H2)]; [now left|]. right. exists o. split; auto. apply in_or_app. auto.
           ++ intros o. rewrite in_app_iff, R4. split.
              ** intros [(y & H1 & H2 & H3)|[<-|[]]]; [exists y; split; [now right|auto]|exists f; split; [now left|auto]].
              ** intros (y & [<-|H1] & H2 & H3); [right; left; congruence|left; eauto].
      * destruct S1 as [(_ & Is)|(op' & E & _)]; [|discriminate]. split; auto. split; eauto. split.
        -- intros y [<-|Hy] Hm; auto. now left.
        -- intros o. rewrite R4. split; [intros (y & H1 & H2); exists y; split; [now right|auto]|].
           intros (y & [<-|H1] & H2 & H3); [congruence|eauto].
    + apply memb_false in M. split; auto. split; eauto. split.
      * intros y [<-|Hy] Hm; [easy|auto].
      * intros o. rewrite R4. split; [intros (y & H1 & H2); exists y; split; [now right|auto]|].
        intros (y & [<-|H1] & H2 & H3); [easy|eauto].
Qed.

Lemma finv0 : FInv [] [] [].
Proof. constructor; try easy; constructor. Qed.

Lemma ff_extract_sound g ops : incl g pr -> ff_extract m rb g = Some ops ->
  NoDup ops /\ (forall op, In op ops -> op < nops) /\ exists pl, Permutation pl ops /\ rplan nops pre add s pl g.
Proof.
  intros IG H. unfold ff_extract in H. apply obind_some in H as ((mf & mo) & E & H). injection H as <-.
  apply ff_goals_inv in E as (I & IG' & _); auto using finv0.
  destruct (ffplan_ok mf mo I pr SR (incl_refl _)) as (R1 & (out & R2) & R3 & R4).
  assert (P : Permutation (ffplan mf pr) (rev mo)).
  { apply NoDup_Permutation; auto; [apply NoDup_rev, (fi_nd _ _ _ I)|]. intros op. rewrite R4, <- in_rev. split.
    - intros (f & _ & H2 & H3). pose proof (fi_cl _ _ _ I f H2) as C. rewrite H3 in C. now apply C.
    - intros Hm. destruct (fi_mo _ _ _ I op Hm) as (f & H1 & H2). exists f. split; auto. now apply (fi_mf _ _ _ I). }
  split; [apply NoDup_rev, (fi_nd _ _ _ I)|]. split.
  - intros op Ho. apply in_rev in Ho. destruct (fi_mo _ _ _ I op Ho) as (f & H1 & H2).
    destruct (src_in f (fi_mf _ _ _ I f H1)) as (_ & _ & C). rewrite H2 in C. now apply C.
  - exists (ffplan mf pr). split; auto. exists out. split; auto. intros f Hf. apply (rexec_out _ _ _ _ _ _ R2).
    apply R3; auto.
Qed.

(** ** Enough room when no operator has more than two preconditions *)
Definition plen (f : nat) : nat := match rbf f with Some op => length (pre op) | None => 0 end.
Definition unm (mf : list nat) : nat := list_sum (map (fun f => if memb f mf then 0 else plen f) (seq 0 nf)).

Lemma sum_change (h1 h2 : nat -> nat) l f : NoDup l -> In f l -> (forall y, y <> f -> h1 y = h2 y) ->
  list_sum (map h1 l) + h2 f = list_sum (map h2 l) + h1 f.
Proof.
  induction l as [|a l IH]; [easy|]. intros N I E. inversion N as [|? ? Na Nl]; subst.
  cbn [map list_sum fold_right]. destruct I as [->|I].
  - assert (Q : map h1 l = map h2 l). { apply map_ext_in. intros y Hy. apply E. intros ->. auto. }
    rewrite Q. lia.
  - specialize (IH Nl I E). rewrite (E a) by (intros ->; auto). unfold list_sum in IH. lia.
Qed.

Lemma unm_insert f mf : f < nf -> ~ In f mf -> unm (f :: mf) + plen f = unm mf.
Proof.
  intros L N. unfold unm.
  pose proof (sum_change (fun y => if memb y (f :: mf) then 0 else plen y) (fun y => if memb y mf then 0 else plen y) (seq 0 nf) f
    (seq_NoDup _ _)) as H. cbv beta in H.
  replace (memb f (f :: mf)) with true in H by (symmetry; apply memb_In; now left).
  replace (memb f mf) with false in H by (symmetry; now apply memb_false).
  rewrite Nat.add_0_r in H. apply H.
  - apply in_seq. lia.
  - intros y Ny. cbn [memb existsb]. fold (memb y mf). destruct (Nat.eqb_spec y f); [congruence|reflexivity].
Qed.

Lemma unm_bound mf : unm mf <= nf * list_sum (map (@length nat) (st_pre m)).
Proof.
  assert (PB : forall op, length (pre op) <= list_sum (map (@length nat) (st_pre m))).
  { intros op. unfold m_pre. generalize (st_pre m) as l. intros l. revert op. induction l as [|a l IH]; intros [|op]; cbn; try lia.
    unfold list_sum in IH. specialize (IH op). lia. }
  unfold unm. rewrite <- (seq_length nf 0) at 2. generalize (seq 0 nf) as l. induction l as [|a l IH]; [cbn; lia|].
  cbn [map list_sum fold_right length]. unfold list_sum at 1 in IH.
  assert (A : (if memb a mf then 0 else plen a) <= list_sum (map (@length nat) (st_pre m))).
  { destruct (memb a mf); [lia|]. unfold plen. destruct (rbf a) as [op|]; [apply PB|lia]. }
  lia.
Qed.

(** Number of marked facts that were reached by an operator. *)
Definition nops_marked (mf : list nat) : nat := length (filter (fun f => match rbf f with Some _ => true | None => false end) mf).

Lemma nops_marked_bound mf : pr <> [] -> NoDup mf -> incl mf pr -> S (nops_marked mf) <= nf.
Proof.
  intros NE ND IM.
  assert (EX : exists f0, In f0 pr /\ rbf f0 = None).
  { destruct (exists_last NE) as (l & f0 & E). exists f0. split; [rewrite E; apply in_or_app; right; now left|].
    assert (H : src m s rb [] f0).
    { pose proof SR as Q. rewrite E in Q. clear - Q. induction l as [|a l IH]; cbn in Q; [tauto|apply IH; tauto]. }
    destruct H as (r & G & [(-> & _)|(op & _ & Ho & _ & Hi)]).
    - unfold rbf. unfold get in G. now apply nth_error_nth with (d := None) in G.
    - elim (NPL op Ho). destruct (pre op) as [|p l0]; auto. elim (Hi p). now left. }
  destruct EX as (f0 & I0 & R0).
  assert (L : length (f0 :: filter (fun f => match rbf f with Some _ => true | None => false end) mf) <= length (seq 0 nf)).
  { apply NoDup_incl_length.
    - constructor; [|now apply NoDup_filter]. intros H. apply filter_In in H as (_ & H). now rewrite R0 in H.
    - intros y [<-|H].
      + apply in_seq. destruct (src_in f0 I0). lia.
      + apply filter_In in H as (H & _). apply in_seq. destruct (src_in y (IM y H)). lia. }
  rewrite seq_length in L. cbn in L. exact L.
Qed.

Lemma ff_loop_total : (forall op, op < nops -> length (pre op) <= 2) ->
  forall fuel st mf mo, FInv st mf mo -> pr <> [] -> length st <= S (nops_marked mf) -> length st + unm mf <= fuel ->
  exists r, ff_loop fuel m rb st mf mo = Some r.
Proof.
  intros K2. induction fuel as [|n IH]; intros st mf mo I NE LS LF; destruct st as [|f st]; cbn [ff_loop]; eauto.
  - cbn in LF. lia.
  - destruct (memb f mf) eqn:M.
    + apply memb_In in M. apply IH; auto; [|cbn in LS; lia|cbn in LF; lia].
      destruct I as [A1 A2 A3 A4 A5 A6]. constructor; auto.
      * intros y Hy. apply A1. now right.
      * intros y Hy. specialize (A3 y Hy). destruct (rbf y); auto. destruct A3 as (B1 & B2). split; auto.
        intros p Hp. destruct (B2 p Hp) as [?|[<-|?]]; auto.
    + apply memb_false in M.
      assert (If : In f pr) by (apply (fi_st _ _ _ I); now left).
      destruct (src_in f If) as (Lf & G & C). rewrite G. cbn [obind].
      pose proof (unm_insert f mf Lf M) as UI. unfold plen in UI.
      destruct (rbf f) as [op|] eqn:R.
      * destruct C as (C1 & C2 & C3). rewrite (get_nth_d [] (st_pre m) op) by auto. fold (pre op). cbn [obind].
        pose proof (fi_expand f op st mf mo I M R) as I'.
        assert (NM : nops_marked (f :: mf) = S (nops_marked mf)) by (unfold nops_marked; cbn [filter]; now rewrite R).
        pose proof (nops_marked_bound (f :: mf) NE (fi_ndf _ _ _ I') (fi_mf _ _ _ I')) as NB.
        pose proof (K2 op C1) as K. cbn in LS, LF.
        rewrite ff_pushes_ok by lia. cbn [obind]. apply IH; auto; rewrite app_length, rev_length; lia.
      * pose proof (fi_expand_none f st mf mo I M R) as I'.
        assert (NM : nops_marked (f :: mf) = nops_marked mf) by (unfold nops_marked; cbn [filter]; now rewrite R).
        cbn in LS, LF. apply IH; auto; lia.
Qed.

Lemma ff_extract_total g : (forall op, op < nops -> length (pre op) <= 2) -> incl g pr -> exists ops, ff_extract m rb g = Some ops.
Proof.
  intros K2 IG. unfold ff_extract.
  assert (H : forall g mf mo, incl g pr -> FInv [] mf mo -> exists r,
    ofold (fun '(mf, mo) f => st <- ff_push nf [] f ;; ff_loop (ff_fuel m) m rb st mf mo) g (mf, mo) = Some r).
  { clear g IG. induction g as [|f g IH]; intros mf mo IG I; [cbn; eauto|]. cbn [ofold].
    assert (If : In f pr) by (apply IG; now left). destruct (src_in f If) as (Lf & _ & _).
    assert (NE : pr <> []) by (intros E; rewrite E in If; easy).
    unfold ff_push at 1. cbn [length]. rewrite (proj2 (Nat.ltb_lt _ _)) by lia. cbn [obind].
    assert (I1 : FInv [f] mf mo).
    { destruct I as [A1 A2 A3 A4 A5 A6]. constructor; auto.
      - intros y [<-|[]]. auto.
      - intros y Hy. specialize (A3 y Hy). destruct (rbf y); auto. destruct A3 as (B1 & B2). split; auto.
        intros p Hp. destruct (B2 p Hp) as [?|[]]; auto. }
    destruct (ff_loop_total K2 (ff_fuel m) [f] mf mo I1 NE) as ((mf1 & mo1) & E).
    - cbn. lia.
    - pose proof (unm_bound mf). unfold ff_fuel. cbn [length]. lia.
    - rewrite E. cbn [obind]. apply IH. { intros y Hy. apply IG. now right. } apply (ff_loop_inv _ _ _ _ _ _ I1 E). }
  destruct (H g [] [] IG finv0) as ((mf & mo) & E). rewrite E. cbn [obind]. eauto.
Qed.

Lemma ff_value_ok ops : (forall op, In op ops -> op < nops) -> ff_value m ops = Some (pcost cost ops).
Proof.
  intros H. unfold ff_value, pcost.
  destruct (forallb (Nat.eqb 1) (st_cost m)) eqn:F.
  - f_equal. rewrite forallb_forall in F.
    induction ops as [|o ops IH]; auto. cbn [length map list_sum fold_right]. unfold list_sum in IH.
    rewrite IH by (intros; apply H; now right).
    assert (C : 1 = cost o). { apply Nat.eqb_eq, F. unfold m_cost. apply nth_In. rewrite (sw_cost m W). apply H. now left. }
    lia.
  - assert (E : omap (get (st_cost m)) ops = Some (map cost ops)).
    { clear F. induction ops as [|o ops IH]; auto. cbn [omap map]. rewrite (get_nth_d 0) by (rewrite (sw_cost m W); apply H; now left).
      cbn [obind]. rewrite IH by (intros; apply H; now right). reflexivity. }
    rewrite E. reflexivity.
Qed.
End FF.
