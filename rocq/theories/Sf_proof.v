(** Proofs about the state-transition formula (C43, C44). *)
From Coq Require Import ZArith.
From Verif Require Import Base Htn_problem Htn_spec Sat_model Sat_spec Sat_proof Sf_model Sf_spec.

Local Open Scope Z_scope.

Lemma some_eq {A} (a b : A) : Some a = Some b -> b = a.
Proof. congruence. Qed.
Lemma omap_some {A B} (f : A -> option B) l r : omap f l = Some r -> Forall2 (fun a b => f a = Some b) l r.
Proof.
  revert r. induction l as [|a l IH]; cbn; intros r H; [injection H as <-; constructor|].
  apply obind_some in H as (b & Eb & H). apply obind_some in H as (bs & Ebs & H). injection H as <-. constructor; auto.
Qed.
Lemma omap_ok {A B} (f : A -> option B) l : (forall a, In a l -> exists b, f a = Some b) -> exists r, omap f l = Some r.
Proof.
  induction l as [|a l IH]; intros H; [now exists []|]. destruct (H a (or_introl eq_refl)) as (b & Eb). destruct IH as (r & Er); [intros x Hx; apply H; now right|].
  exists (b :: r). cbn. rewrite Eb. cbn. rewrite Er. reflexivity.
Qed.
Lemma forall2_in_l {A B} (R : A -> B -> Prop) l r a : Forall2 R l r -> In a l -> exists b, In b r /\ R a b.
Proof. induction 1 as [|x y l r H F IH]; intros []; [subst; exists y; split; [now left|auto]|]. destruct (IH H0) as (b & Ib & Rb). exists b. split; auto. now right. Qed.
Lemma forall2_in_r {A B} (R : A -> B -> Prop) l r b : Forall2 R l r -> In b r -> exists a, In a l /\ R a b.
Proof. induction 1 as [|x y l r H F IH]; intros []; [subst; exists x; split; [now left|auto]|]. destruct (IH H0) as (c & Ib & Rb). exists c. split; auto. now right. Qed.
Lemma sat_concat v Fs : satisfies v (concat Fs) <-> forall F, In F Fs -> satisfies v F.
Proof.
  split.
  - intros H F HF c Hc. apply H. apply in_concat. eauto.
  - intros H c Hc. apply in_concat in Hc as (F & HF & Hc). exact (H F HF c Hc).
Qed.

(** ** Execution of independent actions *)
Section Seq.
  Variable P : problem.
  Notation indep := (independent P).
  Lemma after_indep as_ : ForallOrdPairs indep as_ -> forall S f, after P S as_ f <-> (exists a, In a as_ /\ adds P a f) \/ (S f /\ forall a, In a as_ -> ~ dels P a f).
  Proof.
    induction 1 as [|a r FA FO IH]; intros S f; cbn [after].
    - split; [intros H; right; split; [auto|intros a []]|intros [(a & [] & _)|[H _]]; auto].
    - rewrite IH. unfold result. rewrite Forall_forall in FA. split.
      + intros [(b & Ib & Hb)|[[Ha|[HS Hd]] Hr]]; [left; exists b; split; [now right|auto]|left; exists a; split; [now left|auto]|].
        right. split; auto. intros b [<-|Hb]; auto.
      + intros [(b & [<-|Ib] & Hb)|[HS Hr]]; [right; split; [auto|]|left; eauto|].
        * intros c Hc. apply (proj1 (FA c Hc f)). exact Hb.
        * right. split; [right; split; auto; apply Hr; now left|]. intros b Hb. apply Hr. now right.
  Qed.
  Lemma exec_indep as_ : ForallOrdPairs indep as_ -> forall S, executable P S as_ <-> forall a, In a as_ -> applicable P S a.
  Proof.
    induction 1 as [|a r FA FO IH]; intros S; cbn [executable]; [split; [intros _ a []|auto]|].
    rewrite IH. rewrite Forall_forall in FA. split.
    - intros [Ha Hr] b [<-|Hb]; auto. intros f Hf. destruct (FA b Hb f) as [F1 F2]. destruct (Hr b Hb f Hf) as [H|[H _]]; auto. now destruct (proj1 (F1 H)).
    - intros H. split; [apply H; now left|]. intros b Hb f Hf. right. split; [apply (H b (or_intror Hb)); auto|]. intros D. now destruct (proj1 (proj2 (FA b Hb f) D)).
  Qed.
  Lemma fop_in {A} (R : A -> A -> Prop) l a b : ForallOrdPairs R l -> In a l -> In b l -> a = b \/ R a b \/ R b a.
  Proof. intros H Ha Hb. destruct (ForallOrdPairs_In H a b Ha Hb) as [E|[E|E]]; auto. Qed.

  Record step_rel (S S' : state) (as_ : list nat) : Prop := {
    sr_app : forall a, In a as_ -> applicable P S a;
    sr_add : forall a f, In a as_ -> adds P a f -> S' f;
    sr_del : forall a f, In a as_ -> dels P a f -> ~ S' f;
    sr_pos : forall f, (f < p_nfacts P)%nat -> S' f -> S f \/ exists a, In a as_ /\ adds P a f;
    sr_neg : forall f, (f < p_nfacts P)%nat -> S f -> S' f \/ exists a, In a as_ /\ dels P a f }.

  Lemma step_sound S S' as_ : ForallOrdPairs indep as_ -> step_rel S S' as_ ->
    executable P S as_ /\ forall f, (f < p_nfacts P)%nat -> (after P S as_ f <-> S' f).
  Proof.
    intros FO [A1 A2 A3 A4 A5]. split; [now apply exec_indep|]. intros f Lf. rewrite after_indep by auto. split.
    - intros [(a & Ia & Ha)|[HS Hd]]; [eauto|]. destruct (A5 f Lf HS) as [H|(a & Ia & Ha)]; auto. now destruct (Hd a Ia).
    - intros H. destruct (A4 f Lf H) as [HS|HS]; [right|left; auto]. split; auto. intros a Ia Ha. exact (A3 a f Ia Ha H).
  Qed.
  Lemma dels_dec a f : {dels P a f} + {~ dels P a f}.
  Proof.
    unfold dels. destruct (nth_error (p_del P) a) as [l|]; [|right; intros (l & [=] & _)].
    destruct (in_dec Nat.eq_dec f l); [left; eauto|right; intros (l' & [= <-] & H); auto].
  Qed.
  Lemma some_del as_ f : (exists a, In a as_ /\ dels P a f) \/ (forall a, In a as_ -> ~ dels P a f).
  Proof.
    induction as_ as [|a r IH]; [right; intros a []|]. destruct (dels_dec a f) as [D|D]; [left; exists a; split; [now left|auto]|].
    destruct IH as [(b & Ib & Hb)|H]; [left; exists b; split; [now right|auto]|right; intros b [<-|Hb]; auto].
  Qed.
  Lemma step_complete S as_ : ForallOrdPairs indep as_ -> consistent P as_ -> executable P S as_ -> step_rel S (after P S as_) as_.
  Proof.
    intros FO CO EX. split.
    - now apply exec_indep.
    - intros a f Ia Ha. apply after_indep; eauto.
    - intros a f Ia Ha H. apply after_indep in H as [(b & Ib & Hb)|[_ H]]; auto; [|exact (H a Ia Ha)].
      destruct (fop_in indep as_ a b FO Ia Ib) as [->|[R|R]]; [exact (CO b f Ib Hb Ha)| |]; destruct (R f) as [R1 R2]; tauto.
    - intros f Lf H. apply after_indep in H as [H|[H _]]; auto.
    - intros f Lf H. destruct (some_del as_ f) as [D|D]; [right; auto|left]. apply after_indep; auto.
  Qed.
  Lemma step_rel_ext S S' T T' as_ : (forall a f, In a as_ -> adds P a f \/ dels P a f \/ precs P a f -> (f < p_nfacts P)%nat) ->
    (forall f, (f < p_nfacts P)%nat -> (S f <-> T f)) -> (forall f, (f < p_nfacts P)%nat -> (S' f <-> T' f)) -> step_rel S S' as_ -> step_rel T T' as_.
  Proof.
    intros W E E' [A1 A2 A3 A4 A5]. split.
    - intros a Ia f Hf. apply E; [eapply W; eauto|]. now apply (A1 a).
    - intros a f Ia Ha. apply E'; [eapply W; eauto|]. eauto.
    - intros a f Ia Ha H. apply E' in H; [eauto|eapply W; eauto]. eapply A3; eauto.
    - intros f Lf H. apply E' in H; auto. destruct (A4 f Lf H) as [Q|Q]; auto. left. now apply E.
    - intros f Lf H. apply E in H; auto. destruct (A5 f Lf H) as [Q|Q]; auto. left. now apply E'.
  Qed.
End Seq.

(** ** The clauses of one step *)
Section Step.
  Variable P : problem.
  Hypothesis WF : wf_problem P.
  Definition rd (v : assignment) (base : Z) : state := fun f => v (base + Z.of_nat f) = true.

  Lemma fact_lt a f : adds P a f \/ dels P a f \/ precs P a f -> (f < p_nfacts P)%nat.
  Proof. intros [(l & H & I)|[(l & H & I)|(l & H & I)]]; apply nth_error_In in H; apply (wf_facts P WF l f); auto. Qed.

  Lemma action_sat v this next x a cs : 0 < x -> 0 < this -> 0 < next -> sf_action P this next (x, a) = Some cs ->
    satisfies v cs <-> (v x = true -> applicable P (rd v this) a /\ (forall f, adds P a f -> rd v next f) /\ (forall f, dels P a f -> ~ rd v next f)).
  Proof.
    intros X T N E. unfold sf_action in E. apply obind_some in E as (pr & Ep & E). apply obind_some in E as (ad & Ea & E). apply obind_some in E as (de & Ed & E). injection E as <-.
    rewrite !sat_app, !sat_flat. unfold rd, applicable. split.
    - intros (H1 & H2 & H3) V. repeat apply conj.
      + intros f (l & El & Hf). unfold get in Ep. replace l with pr in Hf by congruence. specialize (H1 f Hf). rewrite sat_implies in H1 by lia.
        rewrite !lit_pos in H1 by lia. auto.
      + intros f (l & El & Hf). unfold get in Ea. replace l with ad in Hf by congruence. specialize (H2 f Hf). rewrite sat_implies in H2 by lia.
        rewrite !lit_pos in H2 by lia. auto.
      + intros f (l & El & Hf) Q. unfold get in Ed. replace l with de in Hf by congruence. specialize (H3 f Hf). rewrite sat_implies_not in H3 by lia.
        rewrite !lit_pos in H3 by lia. rewrite H3 in Q by auto. discriminate.
    - intros H. repeat apply conj; intros f Hf.
      + rewrite sat_implies by lia. rewrite !lit_pos by lia. intros V. apply (H V). exists pr. auto.
      + rewrite sat_implies by lia. rewrite !lit_pos by lia. intros V. apply (H V). exists ad. auto.
      + rewrite sat_implies_not by lia. rewrite !lit_pos by lia. intros V. apply not_true_is_false. apply (H V). exists de. auto.
  Qed.

  Lemma causing_in eff acts f cs : sf_causing eff acts f = Some cs -> forall x, In x cs <-> exists a l, In (x, a) acts /\ nth_error eff a = Some l /\ In f l.
  Proof.
    intros E x. unfold sf_causing in E. apply obind_some in E as (r & Er & E). injection E as <-. apply omap_some in Er. rewrite in_concat. split.
    - intros (l & Il & Ix). destruct (forall2_in_r _ _ _ _ Er Il) as ([y a] & Iy & Q). cbn [fst snd] in Q. apply obind_some in Q as (e & Ee & Q). injection Q as <-.
      apply in_map_iff in Ix as (g & <- & Ig). apply filter_In in Ig as [Ig Eg]. apply Nat.eqb_eq in Eg. subst g. exists a, e. auto.
    - intros (a & l & Ia & El & If). destruct (forall2_in_l _ _ _ _ Er Ia) as (b & Ib & Q). cbn [fst snd] in Q. unfold get in Q. rewrite El in Q. injection Q as <-.
      eexists. split; [exact Ib|]. apply in_map_iff. exists f. split; auto. apply filter_In. split; auto. apply Nat.eqb_refl.
  Qed.

  Lemma in_chosen v acts a : In a (chosen_at v acts) <-> exists x, In (x, a) acts /\ v x = true.
  Proof.
    unfold chosen_at. rewrite in_map_iff. split.
    - intros ([x b] & <- & H). apply filter_In in H. eauto.
    - intros (x & H & V). exists (x, a). split; auto. apply filter_In. auto.
  Qed.

  Lemma step_sat v this next acts cs : (forall x, In x acts -> 0 < fst x) -> 0 < this -> 0 < next -> sf_step P this next acts = Some cs ->
    satisfies v cs <-> step_rel P (rd v this) (rd v next) (chosen_at v acts).
  Proof.
    intros X T N E. unfold sf_step in E. apply obind_some in E as (ac & Ea & E). apply obind_some in E as (fr & Ef & E). injection E as <-.
    apply omap_some in Ea. apply omap_some in Ef. rewrite sat_app, !sat_concat. split.
    - intros [H1 H2].
      assert (A : forall a, In a (chosen_at v acts) -> applicable P (rd v this) a /\ (forall f, adds P a f -> rd v next f) /\ (forall f, dels P a f -> ~ rd v next f)).
      { intros a Ia. apply in_chosen in Ia as (x & Ix & V). destruct (forall2_in_l _ _ _ _ Ea Ix) as (c & Ic & Ec).
        apply (action_sat v this next x a c); auto. apply (X _ Ix). }
      assert (B : forall f, (f < p_nfacts P)%nat -> (rd v next f -> rd v this f \/ exists a, In a (chosen_at v acts) /\ adds P a f) /\
                                                  (rd v this f -> rd v next f \/ exists a, In a (chosen_at v acts) /\ dels P a f)).
      { intros f Lf. destruct (forall2_in_l _ _ _ f Ef ltac:(apply in_seq; lia)) as (c & Ic & Ec). specialize (H2 c Ic). unfold sf_frame in Ec.
        apply obind_some in Ec as (ps & Eps & Ec). apply obind_some in Ec as (ng & Eng & Ec). apply some_eq in Ec; subst. apply sat_app in H2 as [H2 H3].
        rewrite sat_frame in H2, H3 by lia. rewrite !(lit_pos v (_ + _)) in H2, H3 by lia. unfold rd. split; intros Q.
        - destruct (v (this + Z.of_nat f)) eqn:V; [left; reflexivity|right]. destruct (H2 Q eq_refl) as (x & Ix & Vx). apply (causing_in _ _ _ _ Eps) in Ix as (a & l & Ia & El & If).
          exists a. split; [|exists l; auto]. apply in_chosen. exists x. split; auto. rewrite lit_pos in Vx; auto. apply (X _ Ia).
        - destruct (v (next + Z.of_nat f)) eqn:V; [left; reflexivity|right]. destruct (H3 Q eq_refl) as (x & Ix & Vx). apply (causing_in _ _ _ _ Eng) in Ix as (a & l & Ia & El & If).
          exists a. split; [|exists l; auto]. apply in_chosen. exists x. split; auto. rewrite lit_pos in Vx; auto. apply (X _ Ia). }
      split; [intros a Ia; now apply A|intros a f Ia; now apply A|intros a f Ia; now apply A|intros f Lf; now apply B|intros f Lf; now apply B].
    - intros [A1 A2 A3 A4 A5]. split.
      + intros F HF. destruct (forall2_in_r _ _ _ _ Ea HF) as ([x a] & Ix & Ex). apply (action_sat v this next x a F); auto; [apply (X _ Ix)|]. intros V.
        assert (Ia : In a (chosen_at v acts)) by (apply in_chosen; eauto). repeat apply conj; [auto|intros f; apply A2; auto|intros f; apply A3; auto].
      + intros F HF. destruct (forall2_in_r _ _ _ _ Ef HF) as (f & If & Ec). apply in_seq in If. unfold sf_frame in Ec.
        apply obind_some in Ec as (ps & Eps & Ec). apply obind_some in Ec as (ng & Eng & Ec). apply some_eq in Ec; subst. apply sat_app.
        rewrite !sat_frame by lia. rewrite !(lit_pos v (_ + _)) by lia. split; intros Q1 Q2.
        * destruct (A4 f ltac:(lia) Q1) as [H|(a & Ia & Ha)]; [unfold rd in H; congruence|]. apply in_chosen in Ia as (x & Ix & V). exists x. split; [|rewrite lit_pos; auto; apply (X _ Ix)].
          apply (causing_in _ _ _ _ Eps). destruct Ha as (l & El & If'). exists a, l. auto.
        * destruct (A5 f ltac:(lia) Q1) as [H|(a & Ia & Ha)]; [unfold rd in H; congruence|]. apply in_chosen in Ia as (x & Ix & V). exists x. split; [|rewrite lit_pos; auto; apply (X _ Ix)].
          apply (causing_in _ _ _ _ Eng). destruct Ha as (l & El & If'). exists a, l. auto.
  Qed.
End Step.

(** ** All steps *)
Section Steps.
  Variable P : problem.
  Hypothesis WF : wf_problem P.
  Definition same (S T : state) : Prop := forall f, (f < p_nfacts P)%nat -> (S f <-> T f).
  Lemma result_same S T a : same S T -> same (result P S a) (result P T a).
  Proof. intros E f Lf. unfold result. rewrite (E f Lf). tauto. Qed.
  Lemma after_same p : forall S T, same S T -> same (after P S p) (after P T p).
  Proof. induction p as [|a p IH]; intros S T E; cbn [after]; auto. apply IH. now apply result_same. Qed.
  Lemma exec_same p : forall S T, same S T -> executable P S p -> executable P T p.
  Proof.
    induction p as [|a p IH]; intros S T E; cbn [executable]; auto. intros [A B]. split; [|eapply IH; [apply result_same; exact E|exact B]].
    intros f Hf. apply E; [apply (fact_lt P WF a f); auto|]. now apply A.
  Qed.
  Lemma same_sym S T : same S T -> same T S.
  Proof. intros H f Lf. symmetry. auto. Qed.
  Lemma same_trans S T U : same S T -> same T U -> same S U.
  Proof. intros H H' f Lf. rewrite (H f Lf). auto. Qed.
  Lemma after_app S p q : after P S (p ++ q) = after P (after P S p) q.
  Proof. revert S. induction p; intros S; cbn; auto. Qed.
  Lemma exec_app S p q : executable P S (p ++ q) <-> executable P S p /\ executable P (after P S p) q.
  Proof. revert S. induction p as [|a p IH]; intros S; cbn [app executable after]; [tauto|]. rewrite IH. tauto. Qed.
  Lemma step_rel_same S S' T T' p : same S T -> same S' T' -> step_rel P S S' p -> step_rel P T T' p.
  Proof. intros E E'. apply step_rel_ext; auto. intros a f _. apply fact_lt. auto. Qed.

  Variables (nv : Z) (leafs : list leaf).
  Hypothesis NV : 0 <= nv.
  Hypothesis XP : forall l x, In l leafs -> In x l -> 1 <= fst x <= nv.
  Notation base := (sf_base P nv).
  Lemma sf_base_pos t : nv < base t.
  Proof. unfold sf_base. lia. Qed.

  Definition bleafs (b : list nat) : list leaf := map (fun i => nth i leafs []) b.
  Definition bchosen (v : assignment) (b : list nat) : list nat := chosen v (bleafs b).
  Lemma chosen_concat v ls : chosen_at v (concat ls) = chosen v ls.
  Proof.
    unfold chosen. induction ls as [|l ls IH]; auto. cbn [concat flat_map]. rewrite <- IH. unfold chosen_at. now rewrite filter_app, map_app.
  Qed.
  Lemma block_acts_some b acts : block_acts leafs b = Some acts -> acts = concat (bleafs b) /\ forall i, In i b -> (i < length leafs)%nat.
  Proof.
    unfold block_acts, bleafs. intros E. apply obind_some in E as (ls & El & E). apply some_eq in E. subst acts. apply omap_some in El.
    assert (Q : ls = map (fun i => nth i leafs []) b).
    { induction El as [|i l b ls Hi F IH]; auto. cbn. f_equal; auto. unfold get in Hi. symmetry. now apply nth_error_nth. }
    split; [now rewrite Q|]. intros i Hi. destruct (forall2_in_l _ _ _ _ El Hi) as (l & _ & Gl). apply nth_error_Some. unfold get in Gl. congruence.
  Qed.
  Lemma bleafs_in b l : (forall i, In i b -> (i < length leafs)%nat) -> In l (bleafs b) -> In l leafs.
  Proof. intros H Hl. unfold bleafs in Hl. apply in_map_iff in Hl as (i & <- & Hi). apply nth_In. auto. Qed.

  Lemma steps_sat v blocks : forall t cs, sf_steps P nv leafs t blocks = Some cs ->
    satisfies v cs <-> forall k b, nth_error blocks k = Some b -> step_rel P (rd v (base (t + k))) (rd v (base (S (t + k)))) (bchosen v b).
  Proof.
    induction blocks as [|b blocks IH]; intros t cs E; cbn [sf_steps] in E.
    - injection E as <-. split; [intros _ [|k] b H; discriminate|intros _; apply sat_nil].
    - apply obind_some in E as (acts & Ea & E). apply obind_some in E as (c & Ec & E). apply obind_some in E as (cr & Er & E). apply some_eq in E. subst cs.
      destruct (block_acts_some b acts Ea) as [-> HB].
      assert (XX : forall x, In x (concat (bleafs b)) -> 0 < fst x).
      { intros x Hx. apply in_concat in Hx as (l & Hl & Hx). assert (Q := XP l x (bleafs_in b l HB Hl) Hx). lia. }
      assert (B0 := sf_base_pos t). assert (B1 := sf_base_pos (S t)).
      rewrite sat_app, (IH (S t) cr Er), (step_sat P v (base t) (base (S t)) _ c XX ltac:(lia) ltac:(lia) Ec), chosen_concat. split.
      + intros [H1 H2] [|k] b' H; cbn in H; [injection H as <-; rewrite Nat.add_0_r; exact H1|]. specialize (H2 k b' H). replace (t + S k)%nat with (S t + k)%nat by lia. exact H2.
      + intros H. split; [specialize (H 0%nat b eq_refl); rewrite Nat.add_0_r in H; exact H|]. intros k b' Hk. specialize (H (S k) b' Hk). replace (t + S k)%nat with (S t + k)%nat in H by lia. exact H.
  Qed.

  Definition bplan (v : assignment) (blocks : list (list nat)) : list nat := flat_map (bchosen v) blocks.

  Lemma steps_sound v blocks : forall t S, same (rd v (base t)) S ->
    (forall k b, nth_error blocks k = Some b -> step_rel P (rd v (base (t + k))) (rd v (base (Datatypes.S (t + k)))) (bchosen v b)) ->
    (forall b, In b blocks -> ForallOrdPairs (independent P) (bchosen v b)) ->
    executable P S (bplan v blocks) /\ forall k, (k <= length blocks)%nat -> same (rd v (base (t + k))) (after P S (bplan v (firstn k blocks))).
  Proof.
    induction blocks as [|b blocks IH]; intros t S0 D ST FO.
    - split; [exact I|]. intros k Hk. cbn in Hk. replace k with 0%nat by lia. rewrite Nat.add_0_r. exact D.
    - assert (S1 := ST 0%nat b eq_refl). rewrite Nat.add_0_r in S1.
      assert (S2 : step_rel P S0 (rd v (base (S t))) (bchosen v b)). { eapply step_rel_same; [exact D|intros f Lf; reflexivity|exact S1]. }
      destruct (step_sound P _ _ _ (FO b (or_introl eq_refl)) S2) as [EX AF].
      destruct (IH (S t) (after P S0 (bchosen v b))) as [EX2 AF2].
      + apply same_sym. exact AF.
      + intros k b' Hk. specialize (ST (S k) b' Hk). replace (t + S k)%nat with (S t + k)%nat in ST by lia. exact ST.
      + intros b' Hb. apply FO. now right.
      + split.
        * unfold bplan. cbn [flat_map]. apply exec_app. auto.
        * intros [|k] Hk; [rewrite Nat.add_0_r; exact D|]. cbn [firstn]. unfold bplan. cbn [flat_map]. rewrite after_app. replace (t + S k)%nat with (S t + k)%nat by lia. apply AF2. cbn in Hk. lia.
  Qed.

  (** Boolean execution *)
  Definition resb (s : nat -> bool) (a f : nat) : bool := memb f (nth a (p_add P) []) || (s f && negb (memb f (nth a (p_del P) []))).
  Definition aftb (s : nat -> bool) (p : list nat) : nat -> bool := fold_left resb p s.
  Lemma nth_in_eff (e : list (list nat)) a f : In f (nth a e []) <-> exists l, nth_error e a = Some l /\ In f l.
  Proof.
    split.
    - intros H. destruct (nth_error e a) as [l|] eqn:E; [exists l; split; auto; now rewrite (nth_error_nth e a [] E) in H|].
      apply nth_error_None in E. rewrite nth_overflow in H by auto. destruct H.
    - intros (l & E & H). now rewrite (nth_error_nth e a [] E).
  Qed.
  Lemma aftb_spec p : forall s S, (forall f, s f = true <-> S f) -> forall f, aftb s p f = true <-> after P S p f.
  Proof.
    induction p as [|a p IH]; intros s S0 H f; cbn; auto. apply (IH (resb s a) (result P S0 a)). intros g. unfold resb, result, adds, dels.
    rewrite orb_true_iff, andb_true_iff, negb_true_iff, memb_false, memb_In, !nth_in_eff, H. reflexivity.
  Qed.

  Lemma base_S' t : base (S t) = base t + Z.of_nat (Nat.max 1 (p_nfacts P)).
  Proof. unfold sf_base. lia. Qed.
  Lemma base_mono t k : (t <= k)%nat -> base t <= base k.
  Proof. unfold sf_base. intros H. nia. Qed.

  Lemma chosen_at_agree v v' l : (forall x, In x l -> v (fst x) = v' (fst x)) -> chosen_at v l = chosen_at v' l.
  Proof.
    intros H. unfold chosen_at. f_equal. induction l as [|x l IH]; auto. cbn. rewrite (H x (or_introl eq_refl)), IH; auto. intros y Hy. apply H. now right.
  Qed.
  Lemma chosen_agree v v' ls : (forall l x, In l ls -> In x l -> v (fst x) = v' (fst x)) -> chosen v ls = chosen v' ls.
  Proof.
    intros H. unfold chosen. induction ls as [|l ls IH]; auto. cbn. rewrite (chosen_at_agree v v' l), IH; auto; [intros l' x Hl Hx; apply (H l' x); auto; now right|intros x Hx; apply (H l x); auto; now left].
  Qed.

  (** ** The formula *)
  Lemma formula_inv blocks F nv' : state_formula P nv leafs blocks = Some (F, nv') -> blocks <> [] /\ exists cs, sf_steps P nv leafs 0 blocks = Some cs /\
    F = cs ++
      flat_map (fun f => if memb f (p_s0 P) then assertYes (sf_base P nv 0 + Z.of_nat f) else assertNot (sf_base P nv 0 + Z.of_nat f)) (seq 0 (p_nfacts P)) ++
      flat_map (fun f => assertYes (sf_base P nv (length blocks) + Z.of_nat f)) (p_goal P) /\ nv' = base (S (length blocks)) - 1.
  Proof.
    intros E. unfold state_formula in E. destruct blocks as [|b0 br]; [discriminate|]. split; [discriminate|]. apply obind_some in E as (cs & Ec & E). exists cs. split; auto.
    apply some_eq in E. apply pair_equal_spec in E. exact E.
  Qed.
  Lemma formula_sat v blocks F nv' : state_formula P nv leafs blocks = Some (F, nv') ->
    nv' = base (S (length blocks)) - 1 /\ blocks <> [] /\
    (satisfies v F <->
      same (rd v (base 0)) (initial_state P) /\ goal_state P (rd v (base (length blocks))) /\
      forall k b, nth_error blocks k = Some b -> step_rel P (rd v (base k)) (rd v (base (S k))) (bchosen v b)).
  Proof.
    intros E. destruct (formula_inv blocks F nv' E) as (NE & cs & Ec & E1 & E2). split; auto. split; auto. subst F. rewrite !sat_app, !sat_flat, (steps_sat v blocks 0 cs Ec). cbn [Nat.add]. assert (B0 := sf_base_pos 0). assert (BN := sf_base_pos (length blocks)).
    assert (I0 : (forall x, In x (seq 0 (p_nfacts P)) -> satisfies v (if memb x (p_s0 P) then assertYes (base 0 + Z.of_nat x) else assertNot (base 0 + Z.of_nat x))) <-> same (rd v (base 0)) (initial_state P)).
    { unfold same, rd, initial_state. split.
      - intros H f Lf. specialize (H f ltac:(apply in_seq; lia)). rewrite <- memb_In. destruct (memb f (p_s0 P)).
        + rewrite sat_yes, lit_pos in H by lia. tauto.
        + rewrite sat_not, lit_pos in H by lia. rewrite H. split; discriminate.
      - intros H f Lf. apply in_seq in Lf. specialize (H f ltac:(lia)). rewrite <- memb_In in H. destruct (memb f (p_s0 P)).
        + rewrite sat_yes, lit_pos by lia. tauto.
        + rewrite sat_not, lit_pos by lia. apply not_true_is_false. intros Q. apply H in Q. discriminate. }
    rewrite I0.
    assert (GG : (forall x, In x (p_goal P) -> satisfies v (assertYes (base (length blocks) + Z.of_nat x))) <-> goal_state P (rd v (base (length blocks)))).
    { unfold goal_state, rd. split; intros H f Hf; specialize (H f Hf); rewrite sat_yes, lit_pos in * by lia; auto. }
    rewrite GG. tauto.
  Qed.

  Lemma formula_sound v blocks F nv' : state_formula P nv leafs blocks = Some (F, nv') -> (forall b, In b blocks -> ForallOrdPairs (independent P) (bchosen v b)) -> satisfies v F ->
    executable P (initial_state P) (bplan v blocks) /\ goal_state P (after P (initial_state P) (bplan v blocks)) /\
    forall k, (k <= length blocks)%nat -> same (rd v (base k)) (after P (initial_state P) (bplan v (firstn k blocks))).
  Proof.
    intros E FO S. destruct (formula_sat v blocks F nv' E) as (EN & NE & Q). apply Q in S as (S0 & SG & SS).
    destruct (steps_sound v blocks 0 (initial_state P) S0 SS FO) as [EX AF]. split; auto. split; auto.
    intros f Hf. specialize (SG f Hf). specialize (AF (length blocks) (le_n _)). rewrite firstn_all in AF. apply (AF f); auto. now apply (wf_goal P WF).
  Qed.

  Lemma formula_complete v blocks F nv' : state_formula P nv leafs blocks = Some (F, nv') -> concat blocks = seq 0 (length leafs) ->
    (forall b, In b blocks -> ForallOrdPairs (independent P) (bchosen v b)) -> consistent P (bplan v blocks) ->
    executable P (initial_state P) (bplan v blocks) -> goal_state P (after P (initial_state P) (bplan v blocks)) ->
    exists v', (forall x, x <= nv \/ nv' < x -> v' x = v x) /\ satisfies v' F.
  Proof.
    intros E CB FO CO EX GO. destruct (formula_sat v blocks F nv' E) as (EN & NE & _).
    set (N := Z.of_nat (Nat.max 1 (p_nfacts P))).
    set (s0 := fun f => memb f (p_s0 P)).
    set (v' := fun x => if (nv <? x) && (x <=? nv') then aftb s0 (bplan v (firstn (Z.to_nat ((x - nv - 1) / N)) blocks)) (Z.to_nat ((x - nv - 1) mod N)) else v x).
    assert (AG : forall x, x <= nv \/ nv' < x -> v' x = v x). { intros x Hx. unfold v'. destruct (Z.ltb_spec nv x), (Z.leb_spec x nv'); cbn; auto; lia. }
    assert (RD : forall k, (k <= length blocks)%nat -> same (rd v' (base k)) (after P (initial_state P) (bplan v (firstn k blocks)))).
    { intros k Hk f Lf. unfold rd, v'. assert (B := sf_base_pos k). assert (M := base_mono (S k) (S (length blocks)) ltac:(lia)). rewrite base_S' in M.
      destruct (Z.ltb_spec nv (base k + Z.of_nat f)), (Z.leb_spec (base k + Z.of_nat f) nv'); cbn [andb]; try lia.
      assert (EQ : base k + Z.of_nat f - nv - 1 = Z.of_nat k * N + Z.of_nat f) by (unfold sf_base, N; lia). rewrite EQ.
      rewrite Z.div_add_l by lia. rewrite Z.div_small by lia. rewrite Z.add_0_r, Nat2Z.id. rewrite Z.add_comm, Z.mod_add by lia. rewrite Z.mod_small by lia. rewrite Nat2Z.id.
      apply aftb_spec. intros g. unfold s0, initial_state. apply memb_In. }
    assert (INL : forall b i, In b blocks -> In i b -> (i < length leafs)%nat). { intros b i Hb Hi. assert (Q : In i (concat blocks)) by (apply in_concat; eauto). rewrite CB in Q. apply in_seq in Q. lia. }
    assert (BC : forall b, In b blocks -> bchosen v' b = bchosen v b).
    { intros b Hb. apply chosen_agree. intros l x Hl Hx. apply AG. left. assert (Q := XP l x (bleafs_in b l (fun i => INL b i Hb) Hl) Hx). lia. }
    exists v'. split; auto. apply (formula_sat v' blocks F nv' E). split; [|split].
    - exact (RD 0%nat ltac:(lia)).
    - intros f Hf. apply (RD (length blocks) (le_n _) f); [now apply (wf_goal P WF)|]. rewrite firstn_all. now apply GO.
    - intros k b Hk. assert (Hb := nth_error_In _ _ Hk). assert (Lk : (k < length blocks)%nat) by (apply nth_error_Some; congruence). rewrite BC by auto.
      assert (SP : exists post, bplan v blocks = bplan v (firstn k blocks) ++ bchosen v b ++ post /\ bplan v (firstn (S k) blocks) = bplan v (firstn k blocks) ++ bchosen v b).
      { assert (F1 : firstn (S k) blocks = firstn k blocks ++ [b]).
        { clear - Hk. revert k Hk. induction blocks as [|a l IH]; intros [|k] H; try discriminate; cbn in H; [injection H as ->; reflexivity|]. cbn [firstn app]. f_equal. now apply IH. }
        exists (bplan v (skipn (S k) blocks)). split.
        - rewrite <- (firstn_skipn (S k) blocks) at 1. rewrite F1. unfold bplan. rewrite !flat_map_app. cbn. now rewrite app_nil_r, <- app_assoc.
        - rewrite F1. unfold bplan. rewrite flat_map_app. cbn. now rewrite app_nil_r. }
      destruct SP as (post & E1 & E2). rewrite E1 in EX. apply exec_app in EX as [_ EX]. apply exec_app in EX as [EX _].
      eapply step_rel_same; [apply same_sym; apply RD; lia|apply same_sym; apply RD; lia|]. rewrite E2, after_app. apply step_complete; auto.
      intros a f Ha. apply CO. rewrite E1. apply in_or_app. right. apply in_or_app. now left.
  Qed.

  (** ** Independent blocks *)
  Lemma fop_app {A} (R : A -> A -> Prop) l m : ForallOrdPairs R l -> ForallOrdPairs R m -> (forall a b, In a l -> In b m -> R a b) -> ForallOrdPairs R (l ++ m).
  Proof.
    intros H1 H2 H. induction H1 as [|a r FA FO IH]; auto. cbn. constructor.
    - apply Forall_app. split; auto. apply Forall_forall. intros b Hb. apply H; auto. now left.
    - apply IH. intros x y Hx. apply H. now right.
  Qed.
  Lemma fop_short {A} (R : A -> A -> Prop) l : (length l <= 1)%nat -> ForallOrdPairs R l.
  Proof. destruct l as [|a [|b l]]; cbn; intros H; try lia; repeat constructor. Qed.
  Lemma fop_flat {A B} (R : B -> B -> Prop) (f : A -> list B) l :
    ForallOrdPairs (fun i j => forall a b, In a (f i) -> In b (f j) -> R a b) l -> (forall i, In i l -> (length (f i) <= 1)%nat) -> ForallOrdPairs R (flat_map f l).
  Proof.
    induction 1 as [|i r FA FO IH]; intros H; cbn; [constructor|]. apply fop_app.
    - apply fop_short. apply H. now left.
    - apply IH. intros j Hj. apply H. now right.
    - intros a b Ha Hb. apply in_flat_map in Hb as (j & Hj & Hb). rewrite Forall_forall in FA. exact (FA j Hj a b Ha Hb).
  Qed.
  Lemma fop_seq (R : nat -> nat -> Prop) l : (forall i j, In i l -> In j l -> (i < j)%nat -> R i j) -> ForallOrdPairs lt l -> ForallOrdPairs R l.
  Proof.
    intros H F. induction F as [|a r FA FO IH]; constructor.
    - rewrite Forall_forall in *. intros j Hj. apply H; [now left|now right|auto].
    - apply IH. intros i j Hi Hj. apply H; now right.
  Qed.
  Lemma seq_fop n b : ForallOrdPairs lt (seq b n).
  Proof. revert b. induction n as [|n IH]; intros b; cbn; constructor; auto. apply Forall_forall. intros x Hx. apply in_seq in Hx. lia. Qed.
  Lemma fop_app_inv {A} (R : A -> A -> Prop) l m : ForallOrdPairs R (l ++ m) -> ForallOrdPairs R l /\ ForallOrdPairs R m.
  Proof.
    induction l as [|a l IH]; cbn; intros H; [split; [constructor|auto]|]. inversion H as [|? ? FA FO]; subst. destruct (IH FO) as [H1 H2]. split; auto. constructor; auto.
    apply Forall_app in FA. apply FA.
  Qed.
  Lemma fop_concat {A} (R : A -> A -> Prop) ls l : ForallOrdPairs R (concat ls) -> In l ls -> ForallOrdPairs R l.
  Proof.
    induction ls as [|m ls IH]; [intros _ []|]. cbn [concat]. intros H [<-|Hl]; apply fop_app_inv in H; [tauto|apply IH; tauto].
  Qed.

  Lemma blocks_fop v blocks : blocks_independent P leafs blocks -> one_each v leafs -> forall b, In b blocks -> ForallOrdPairs (independent P) (bchosen v b).
  Proof.
    intros [CB IN] OE b Hb. unfold bchosen, chosen, bleafs. rewrite flat_map_concat_map, map_map, <- flat_map_concat_map.
    apply fop_flat.
    - apply fop_seq; [|eapply fop_concat; [rewrite CB; apply seq_fop|exact Hb]]. intros i j Hi Hj L a c Ha Hc.
      apply in_chosen in Ha as (x & Ix & _). apply in_chosen in Hc as (y & Iy & _). exact (IN b i j (x, a) (y, c) Hb Hi Hj L Ix Iy).
    - intros i Hi. apply OE. apply nth_In. assert (Q : In i (concat blocks)) by (apply in_concat; eauto). rewrite CB in Q. apply in_seq in Q. exact (proj2 Q).
  Qed.
  Lemma flat_nth (v : assignment) (ls : list (list (Z * nat))) : flat_map (fun i => chosen_at v (nth i ls [])) (seq 0 (length ls)) = chosen v ls.
  Proof.
    unfold chosen. induction ls as [|l ls IH] using rev_ind; auto. rewrite app_length. cbn [length]. rewrite Nat.add_1_r, seq_S, !flat_map_app. f_equal.
    - rewrite <- IH. rewrite !flat_map_concat_map. f_equal. apply map_ext_in. intros i Hi. apply in_seq in Hi. now rewrite app_nth1 by lia.
    - cbn. rewrite app_nth2 by lia. rewrite Nat.sub_diag. reflexivity.
  Qed.
  Lemma bplan_chosen v blocks : concat blocks = seq 0 (length leafs) -> bplan v blocks = chosen v leafs.
  Proof.
    intros CB. assert (Q : bplan v blocks = flat_map (fun i => chosen_at v (nth i leafs [])) (concat blocks)).
    { unfold bplan. clear CB. induction blocks as [|b r IH]; auto. cbn [flat_map concat]. rewrite flat_map_app, <- IH. f_equal. unfold bchosen, chosen, bleafs. rewrite flat_map_concat_map, map_map, <- flat_map_concat_map. reflexivity. }
    rewrite Q, CB. apply flat_nth.
  Qed.
End Steps.

(** ** Block compression *)
Section Compress.
  Variable P : problem.
  Lemma omap_concat_in (e : list (list nat)) l r f : omap (get e) l = Some r -> In f (concat r) <-> exists a, In a l /\ exists x, nth_error e a = Some x /\ In f x.
  Proof.
    intros E. apply omap_some in E. rewrite in_concat. split.
    - intros (x & Ix & If). destruct (forall2_in_r _ _ _ _ E Ix) as (a & Ia & Ga). exists a. split; auto. exists x. auto.
    - intros (a & Ia & x & Ex & If). destruct (forall2_in_l _ _ _ _ E Ia) as (y & Iy & Gy). unfold get in Gy. exists y. split; auto. congruence.
  Qed.
  Lemma interfere_false prev next : actions_interfere P prev next = Some false -> forall a b, In a prev -> In b next -> independent P a b.
  Proof.
    unfold actions_interfere. intros E. apply obind_some in E as (prs & E1 & E). apply obind_some in E as (ads & E2 & E). apply obind_some in E as (des & E3 & E).
    apply obind_some in E as (pas & E4 & E). apply obind_some in E as (pds & E5 & E). apply some_eq in E. symmetry in E. apply orb_false_iff in E as [F1 F2].
    intros a b Ia Ib f. split; intros Ha.
    - assert (If : In f (concat pas)) by (apply (omap_concat_in _ _ _ f E4); eauto).
      assert (Q : memb f (concat prs) || memb f (concat des) = false). { destruct (memb f (concat prs) || memb f (concat des)) eqn:Q; auto. exfalso. rewrite <- not_true_iff_false in F1. apply F1. apply existsb_exists. eauto. }
      apply orb_false_iff in Q as [Q1 Q2]. rewrite memb_false, (omap_concat_in _ _ _ f E1) in Q1. rewrite memb_false, (omap_concat_in _ _ _ f E3) in Q2. split; intros H; [apply Q1|apply Q2]; eauto.
    - assert (If : In f (concat pds)) by (apply (omap_concat_in _ _ _ f E5); eauto).
      assert (Q : memb f (concat prs) || memb f (concat ads) = false). { destruct (memb f (concat prs) || memb f (concat ads)) eqn:Q; auto. exfalso. rewrite <- not_true_iff_false in F2. apply F2. apply existsb_exists. eauto. }
      apply orb_false_iff in Q as [Q1 Q2]. rewrite memb_false, (omap_concat_in _ _ _ f E1) in Q1. rewrite memb_false, (omap_concat_in _ _ _ f E2) in Q2. split; intros H; [apply Q1|apply Q2]; eauto.
  Qed.

  Definition pairs_ok (all : list (list nat)) (b : list nat) : Prop :=
    forall i j x y, In i b -> In j b -> (i < j)%nat -> In x (nth i all []) -> In y (nth j all []) -> independent P x y.

  Lemma compress_ok all r : forall pre block cur bs, all = pre ++ r -> (forall i, In i block -> (i < length pre)%nat) ->
    (forall i a, In i block -> In a (nth i all []) -> In a cur) -> pairs_ok all block -> compress P r (length pre) block cur = Some bs ->
    concat bs = block ++ seq (length pre) (length r) /\ (forall b, In b bs -> pairs_ok all b).
  Proof.
    induction r as [|p r IH]; intros pre block cur bs EA LB CU PO E; cbn [compress] in E.
    - injection E as <-. cbn. split; [reflexivity|]. intros b [<-|[]]; auto.
    - apply obind_some in E as (i & Ei & E).
      assert (NP : nth (length pre) all [] = p) by (rewrite EA, app_nth2, Nat.sub_diag by lia; reflexivity).
      assert (EA' : all = (pre ++ [p]) ++ r) by (rewrite <- app_assoc; exact EA).
      assert (LP : S (length pre) = length (pre ++ [p])) by (rewrite app_length; cbn; lia).
      destruct i.
      + apply obind_some in E as (bs' & Eb & E). apply some_eq in E. subst bs. rewrite LP in Eb.
        destruct (IH (pre ++ [p]) [length pre] p bs' EA') as [C1 C2]; auto.
        * intros i [<-|[]]. lia.
        * intros i a [<-|[]]. now rewrite NP.
        * intros i j x y [<-|[]] [<-|[]] L. lia.
        * rewrite <- LP in C1. split; [cbn [concat]; rewrite C1; reflexivity|]. intros b [<-|Hb]; auto.
      + rewrite LP in E. assert (IN := interfere_false cur p Ei).
        destruct (IH (pre ++ [p]) (block ++ [length pre]) (cur ++ p) bs EA') as [C1 C2]; auto.
        * intros i Hi. apply in_app_or in Hi as [Hi|[<-|[]]]; [specialize (LB i Hi)|]; lia.
        * intros i a Hi Ha. apply in_or_app. apply in_app_or in Hi as [Hi|[<-|[]]]; [left; eauto|right; now rewrite NP in Ha].
        * intros i j x y Hi Hj L Hx Hy. apply in_app_or in Hi. apply in_app_or in Hj. destruct Hi as [Hi|[<-|[]]], Hj as [Hj|[<-|[]]].
          -- exact (PO i j x y Hi Hj L Hx Hy).
          -- rewrite NP in Hy. apply IN; eauto.
          -- specialize (LB j Hj). lia.
          -- lia.
        * split; auto. rewrite C1, <- LP, <- app_assoc. reflexivity.
  Qed.
  Lemma compression_ok (leafs : list (list (Z * nat))) bs : block_compression P (map (map snd) leafs) = Some bs -> blocks_independent P leafs bs.
  Proof.
    intros E. destruct (compress_ok (map (map snd) leafs) (map (map snd) leafs) [] [] [] bs) as [C1 C2]; auto; try (intros ? []); try (intros ? ? []); try (intros ? ? ? ? []); try exact E.
    - cbn in C1. rewrite map_length in C1. split; auto. intros b i j x y Hb Hi Hj L Hx Hy. apply (C2 b Hb i j); auto.
      + change (@nil nat) with (map (@snd Z nat) []). rewrite map_nth. now apply in_map.
      + change (@nil nat) with (map (@snd Z nat) []). rewrite map_nth. now apply in_map.
  Qed.
  Lemma compress_nonempty r l b c bs : compress P r l b c = Some bs -> bs <> [].
  Proof.
    revert l b c bs. induction r as [|p r IH]; intros l b c bs E; cbn in E; [injection E as <-; discriminate|]. apply obind_some in E as (i & _ & E).
    destruct i; [apply obind_some in E as (bs' & _ & E); injection E as <-; discriminate|eauto].
  Qed.
  Lemma unit_ok (leafs : list (list (Z * nat))) : blocks_independent P leafs (unit_blocks leafs).
  Proof.
    split.
    - unfold unit_blocks. assert (Q : forall m b, concat (map (fun t : nat => [t]) (seq b m)) = seq b m); [|apply Q]. induction m as [|m IH]; intros b; auto. cbn. f_equal. apply IH.
    - intros b i j x y Hb Hi Hj L. unfold unit_blocks in Hb. apply in_map_iff in Hb as (t & <- & _). destruct Hi as [<-|[]], Hj as [<-|[]]. lia.
  Qed.

  (** ** Definedness *)
  Definition actions_ok (leafs : list (list (Z * nat))) : Prop := forall l x, In l leafs -> In x l -> (snd x < length (p_cost P))%nat.
  Hypothesis WF : wf_problem P.
  Lemma get_prec a : (a < length (p_cost P))%nat -> exists l, get (p_prec P) a = Some l.
  Proof. intros H. apply get_some. now rewrite (wf_prec P WF). Qed.
  Lemma get_add a : (a < length (p_cost P))%nat -> exists l, get (p_add P) a = Some l.
  Proof. intros H. apply get_some. now rewrite (wf_add P WF). Qed.
  Lemma get_del a : (a < length (p_cost P))%nat -> exists l, get (p_del P) a = Some l.
  Proof. intros H. apply get_some. now rewrite (wf_del P WF). Qed.
  Lemma causing_defined eff acts f : (forall x, In x acts -> exists l, get eff (snd x) = Some l) -> exists r, sf_causing eff acts f = Some r.
  Proof.
    intros H. unfold sf_causing. destruct (omap_ok (fun x : Z * nat => e <- get eff (snd x);; Some (map (fun _ => fst x) (filter (Nat.eqb f) e))) acts) as (r & ->); [|cbn; eauto].
    intros x Hx. destruct (H x Hx) as (l & ->). cbn. eauto.
  Qed.
  Lemma step_defined this next acts : (forall x, In x acts -> (snd x < length (p_cost P))%nat) -> exists c, sf_step P this next acts = Some c.
  Proof.
    intros H. unfold sf_step. destruct (omap_ok (sf_action P this next) acts) as (r & ->).
    { intros [x a] Hx. specialize (H _ Hx). cbn in H. unfold sf_action. destruct (get_prec a H) as (p & ->), (get_add a H) as (ad & ->), (get_del a H) as (d & ->). cbn. eauto. }
    cbn [obind]. destruct (omap_ok (sf_frame P this next acts) (seq 0 (p_nfacts P))) as (r' & ->); [|cbn; eauto].
    intros f _. unfold sf_frame. destruct (causing_defined (p_add P) acts f) as (p & ->); [intros x Hx; apply get_add; auto|].
    destruct (causing_defined (p_del P) acts f) as (q & ->); [intros x Hx; apply get_del; auto|]. cbn. eauto.
  Qed.
  Lemma block_acts_defined (leafs : list (list (Z * nat))) b : (forall i, In i b -> (i < length leafs)%nat) -> exists acts, block_acts leafs b = Some acts.
  Proof. intros H. unfold block_acts. destruct (omap_ok (@get leaf leafs) b) as (r & ->); [|cbn; eauto]. intros i Hi. apply get_some. now apply H. Qed.
  Lemma steps_defined nv (leafs : list (list (Z * nat))) blocks : actions_ok leafs -> (forall b i, In b blocks -> In i b -> (i < length leafs)%nat) -> forall t, exists cs, sf_steps P nv leafs t blocks = Some cs.
  Proof.
    intros AO. induction blocks as [|b r IH]; intros H t; cbn [sf_steps]; [eauto|].
    assert (Hb : forall i, In i b -> (i < length leafs)%nat) by (intros i Hi; apply (H b i); auto; now left).
    destruct (block_acts_defined leafs b Hb) as (acts & Ea). rewrite Ea. cbn [obind]. destruct (block_acts_some leafs b acts Ea) as [EQ _].
    destruct (step_defined (sf_base P nv t) (sf_base P nv (S t)) acts) as (c & ->).
    { intros x Hx. rewrite EQ in Hx. apply in_concat in Hx as (l & Hl & Hx). apply (AO l x); auto. exact (bleafs_in leafs b l Hb Hl). }
    cbn [obind]. destruct (IH (fun b i Hb => H b i (or_intror Hb)) (S t)) as (cs & ->). cbn. eauto.
  Qed.
  Lemma formula_defined nv (leafs : list (list (Z * nat))) blocks : actions_ok leafs -> blocks <> [] -> concat blocks = seq 0 (length leafs) -> exists F nv', state_formula P nv leafs blocks = Some (F, nv').
  Proof.
    intros AO NE CB. unfold state_formula. destruct blocks as [|b r]; [congruence|]. destruct (steps_defined nv leafs (b :: r) AO) with (t := 0%nat) as (cs & ->); [|cbn [obind]; eauto].
    intros b' i Hb Hi. assert (Q : In i (concat (b :: r))) by (apply in_concat; eauto). rewrite CB in Q. apply in_seq in Q. exact (proj2 Q).
  Qed.
  Lemma compress_defined r : (forall p a, In p r -> In a p -> (a < length (p_cost P))%nat) -> forall l b c, (forall a, In a c -> (a < length (p_cost P))%nat) -> exists bs, compress P r l b c = Some bs.
  Proof.
    induction r as [|p r IH]; intros H l b c Hc; cbn [compress]; [eauto|].
    assert (Hp : forall a, In a p -> (a < length (p_cost P))%nat) by (intros a Ha; apply (H p a); auto; now left).
    assert (IH' := IH (fun q a Hq => H q a (or_intror Hq))).
    assert (AI : exists i, actions_interfere P c p = Some i).
    { unfold actions_interfere. destruct (omap_ok (get (p_prec P)) p) as (? & ->); [intros; apply get_prec; auto|]. destruct (omap_ok (get (p_add P)) p) as (? & ->); [intros; apply get_add; auto|].
      destruct (omap_ok (get (p_del P)) p) as (? & ->); [intros; apply get_del; auto|]. destruct (omap_ok (get (p_add P)) c) as (? & ->); [intros; apply get_add; auto|].
      destruct (omap_ok (get (p_del P)) c) as (? & ->); [intros; apply get_del; auto|]. cbn. eauto. }
    destruct AI as (i & ->). cbn [obind]. destruct i.
    - destruct (IH' (S l) [l] p Hp) as (bs & ->). cbn. eauto.
    - apply IH'. intros a Ha. apply in_app_or in Ha as [Ha|Ha]; auto.
  Qed.
End Compress.

(** All variables of the formula lie below the new number of variables. *)
Section Vars.
  Variable P : problem.
  Hypothesis WF : wf_problem P.
  Variables (nv : Z) (leafs : list leaf).
  Hypothesis NV : 0 <= nv.
  Hypothesis XP : forall l x, In l leafs -> In x l -> 1 <= fst x <= nv.

  Lemma state_vars t k f : (f < p_nfacts P)%nat -> (t <= k)%nat -> lit_ok (sf_base P nv (S k) - 1) (sf_base P nv t + Z.of_nat f).
  Proof. intros Lf Lt. assert (B := sf_base_pos P nv t). assert (M := base_mono P nv (S t) (S k) ltac:(lia)). rewrite base_S' in M. unfold lit_ok. lia. Qed.
  Lemma act_var k x : 1 <= x <= nv -> lit_ok (sf_base P nv k - 1) x.
  Proof. intros H. assert (B := sf_base_pos P nv k). unfold lit_ok. lia. Qed.
  Lemma ok_opp n l : lit_ok n l -> lit_ok n (- l).
  Proof. unfold lit_ok. now rewrite Z.abs_opp. Qed.

  Lemma step_vars t k acts cs : (S t <= k)%nat -> (forall x, In x acts -> 1 <= fst x <= nv) -> sf_step P (sf_base P nv t) (sf_base P nv (S t)) acts = Some cs -> vars_le (sf_base P nv (S k) - 1) cs.
  Proof.
    intros Lk X E. unfold sf_step in E. apply obind_some in E as (ac & Ea & E). apply obind_some in E as (fr & Ef & E). apply some_eq in E. subst cs.
    apply omap_some in Ea. apply omap_some in Ef. apply vars_app. split.
    - intros c l Hc Hl. apply in_concat in Hc as (C & HC & Hc). destruct (forall2_in_r _ _ _ _ Ea HC) as ([x a] & Ix & Ex). specialize (X _ Ix). cbn [fst] in X.
      assert (AV := act_var (S k) x X). unfold sf_action in Ex. apply obind_some in Ex as (pr & Ep & Ex). apply obind_some in Ex as (ad & Ead & Ex). apply obind_some in Ex as (de & Ed & Ex). apply some_eq in Ex. subst C.
      assert (FL : forall f e, In e (p_prec P) \/ In e (p_add P) \/ In e (p_del P) -> In f e -> (f < p_nfacts P)%nat) by (intros f e He Hf; exact (wf_facts P WF e f He Hf)).
      apply in_app_or in Hc as [Hc|Hc]; [|apply in_app_or in Hc as [Hc|Hc]]; apply in_flat_map in Hc as (f & Hf & Hc); destruct Hc as [<-|[]]; destruct Hl as [<-|[<-|[]]]; try (now apply ok_opp);
        try apply ok_opp; apply state_vars; try lia; eapply FL; try exact Hf; unfold get in *; eauto using nth_error_In.
    - intros c l Hc Hl. apply in_concat in Hc as (C & HC & Hc). destruct (forall2_in_r _ _ _ _ Ef HC) as (f & If & Ec). apply in_seq in If. unfold sf_frame in Ec.
      apply obind_some in Ec as (ps & Eps & Ec). apply obind_some in Ec as (ng & Eng & Ec). apply some_eq in Ec. subst C.
      assert (CV : forall eff r y, sf_causing eff acts f = Some r -> In y r -> lit_ok (sf_base P nv (S k) - 1) y).
      { intros eff r y Er Hy. apply (causing_in _ _ _ _ Er) in Hy as (a & e & Ia & _). apply act_var. apply (X _ Ia). }
      destruct Hc as [<-|[<-|[]]]; destruct Hl as [<-|[<-|Hl]]; try apply ok_opp; try (apply state_vars; lia); first [exact (CV _ _ _ Eps Hl)|exact (CV _ _ _ Eng Hl)].
  Qed.
  Lemma formula_vars blocks F nv' : state_formula P nv leafs blocks = Some (F, nv') -> nv <= nv' /\ vars_le nv' F.
  Proof.
    intros E. destruct (formula_inv P nv leafs blocks F nv' E) as (NE & cs & Ec & -> & ->). split; [assert (B := sf_base_pos P nv (S (length blocks))); lia|]. apply vars_app. split; [|apply vars_app; split].
    - assert (G : forall bs t cs, (t + length bs <= length blocks)%nat -> sf_steps P nv leafs t bs = Some cs -> vars_le (sf_base P nv (S (length blocks)) - 1) cs); [|apply (G blocks 0%nat); auto].
      induction bs as [|b r IH]; intros t cs' L E'; cbn [sf_steps] in E'; [injection E' as <-; apply vars_nil|].
      apply obind_some in E' as (acts & Ea & E'). apply obind_some in E' as (c & Ecc & E'). apply obind_some in E' as (cr & Er & E'). apply some_eq in E'. subst cs'. cbn [length] in L. apply vars_app. split.
      + destruct (block_acts_some leafs b acts Ea) as [-> HB]. eapply step_vars; [|intros x Hx|exact Ecc]; [lia|]. apply in_concat in Hx as (l & Hl & Hx). exact (XP l x (bleafs_in leafs b l HB Hl) Hx).
      + apply (IH (S t) cr); auto. lia.
    - apply vars_flat. intros f Hf. apply in_seq in Hf. destruct (memb f (p_s0 P)); apply vars_cons; split; try apply vars_nil; intros l [<-|[]]; try apply ok_opp; apply state_vars; lia.
    - apply vars_flat. intros f Hf. apply vars_cons. split; [|apply vars_nil]. intros l [<-|[]]. apply state_vars; [now apply (wf_goal P WF)|lia].
  Qed.
End Vars.
