(** A decomposition tree whose leafs are actions, together with an order of its leafs, is a solution. *)
From Coq Require Import List Arith Lia Relations.
Import ListNotations.
From Verif Require Import Base Htn_problem Htn_spec Htn_sem.

(** A decomposition: actions carry a tag, tasks the method and the decompositions of its subtasks. *)
Inductive dtr := DA (tag : list nat) (a : nat) | DN (m : method) (kids : list dtr).
Section Ind.
  Variable Q : dtr -> Prop.
  Hypothesis HA : forall p a, Q (DA p a).
  Hypothesis HN : forall m kids, Forall Q kids -> Q (DN m kids).
  Fixpoint dtr_ind' (w : dtr) : Q w :=
    match w with
    | DA p a => HA p a
    | DN m kids => HN m kids ((fix go (l : list dtr) : Forall Q l := match l with [] => Forall_nil Q | u :: r => Forall_cons u (dtr_ind' u) (go r) end) kids)
    end.
End Ind.
Definition dlab (w : dtr) : nat := match w with DA _ a => a | DN m _ => m_task m end.
Fixpoint dsub (w : dtr) (x : list nat) : option dtr :=
  match x with
  | [] => Some w
  | j :: r => match w with DA _ _ => None | DN _ kids => match nth_error kids j with Some k => dsub k r | None => None end end
  end.
Inductive good (P : problem) : dtr -> Prop :=
| good_a p a : primitive P a -> good P (DA p a)
| good_n m kids : In m (p_methods P) -> map dlab kids = m_subs m -> Forall (good P) kids -> good P (DN m kids).
(** x is ordered before y by the method where the addresses separate *)
Definition dt_before (w : dtr) (x y : list nat) : Prop :=
  exists r j k x' y' m kids, x = r ++ j :: x' /\ y = r ++ k :: y' /\ dsub w r = Some (DN m kids) /\ m_lt m j k.

Lemma dsub_app w x : forall y, dsub w (x ++ y) = match dsub w x with Some u => dsub u y | None => None end.
Proof. revert w. induction x as [|j r IH]; intros w y; auto. cbn [app dsub]. destruct w as [|m kids]; auto. destruct (nth_error kids j); auto. Qed.
Lemma dsub_good P w x u : good P w -> dsub w x = Some u -> good P u.
Proof.
  revert w. induction x as [|j r IH]; intros w G E; [injection E as <-; auto|]. cbn [dsub] in E. destruct w as [|m kids]; [discriminate|]. destruct (nth_error kids j) as [k|] eqn:Ek; [|discriminate].
  inversion G as [|? ? _ _ F]; subst. rewrite Forall_forall in F. apply (IH k); auto. apply F. now apply nth_error_In in Ek.
Qed.
Lemma dsub_snoc w x j u : dsub w (x ++ [j]) = Some u <-> exists m kids, dsub w x = Some (DN m kids) /\ nth_error kids j = Some u.
Proof.
  rewrite dsub_app. destruct (dsub w x) as [[p a|m kids]|]; cbn [dsub]; split.
  - discriminate.
  - intros (m & kids & E & _). discriminate.
  - destruct (nth_error kids j) eqn:E; [|discriminate]. intros H. injection H as ->. eauto.
  - intros (m' & kids' & E & H). injection E as <- <-. now rewrite H.
  - discriminate.
  - intros (m' & kids' & E & H). discriminate.
Qed.

Section Net.
  Variables (P : problem) (w : dtr).
  Hypothesis AC : acyclic_methods P.
  Hypothesis GW : good P w.

  (** The network in which exactly the tasks of [S] are decomposed. *)
  Definition hangs (S : list tid) (y : tid) : Prop := y = [] \/ exists x j, y = x ++ [j] /\ In x S.
  Definition inn (S : list tid) (y : tid) : Prop := dsub w y <> None /\ ~ In y S /\ hangs S y.
  Definition net (S : list tid) : tnet := {| t_in := inn S; t_lab := fun y => match dsub w y with Some u => dlab u | None => 0 end; t_ord := fun y z => inn S y /\ inn S z /\ dt_before w y z |}.
  Definition pclosed (S : list tid) : Prop := forall x j, In (x ++ [j]) S -> In x S.
  Definition isN (y : tid) : Prop := exists m kids, dsub w y = Some (DN m kids).

  Lemma pclosed_app S : pclosed S -> forall l x, In (x ++ l) S -> In x S.
  Proof. intros C l. induction l as [|j l IH] using rev_ind; intros x H; [now rewrite app_nil_r in H|]. rewrite app_assoc in H. apply C in H. auto. Qed.
  Lemma hangs_app S : pclosed S -> forall y l x, hangs S y -> y = x ++ l -> l <> [] -> In x S.
  Proof.
    intros C y l x H E N. destruct H as [->|(z & j & -> & Hz)]; [symmetry in E; apply app_eq_nil in E as [_ E]; contradiction|].
    destruct (@exists_last _ l N) as (l' & k & ->). rewrite app_assoc in E. apply app_inj_tail in E as [-> _]. now apply (pclosed_app S C l').
  Qed.
  Lemma snoc_split (r x : list nat) j' x' j : r ++ j' :: x' = x ++ [j] -> (r = x /\ j' = j /\ x' = []) \/ exists x2, x = r ++ j' :: x2 /\ x' = x2 ++ [j].
  Proof.
    intros E. destruct x' as [|a l] eqn:L.
    - apply app_inj_tail in E as [-> ->]. auto.
    - right. destruct (@exists_last _ (a :: l)) as (l' & b & Q); [discriminate|]. rewrite Q in E |- *. exists l'. replace (r ++ j' :: l' ++ [b]) with ((r ++ j' :: l') ++ [b]) in E by now rewrite <- app_assoc. apply app_inj_tail in E as [<- <-]. auto.
  Qed.
  Lemma diverge S x z r j k z' : pclosed S -> ~ In x S -> inn S z -> z <> x -> x ++ [j] = r ++ k :: z' -> forall j' y', z = r ++ j' :: y' -> exists x2, x = r ++ k :: x2 /\ z' = x2 ++ [j].
  Proof.
    intros C NX (_ & _ & HZ) NE E j' y' Ez. symmetry in E. destruct (snoc_split _ _ _ _ _ E) as [(-> & -> & ->)|H]; auto. elim NX. apply (hangs_app S C z (j' :: y') x HZ Ez). discriminate.
  Qed.

  Lemma open_step S x m kids : pclosed S -> inn S x -> dsub w x = Some (DN m kids) -> decomposes P (net S) x m (net (x :: S)).
  Proof.
    intros C IX EX. assert (IX' := IX). destruct IX' as (X1 & X2 & X3). assert (G := dsub_good P w x _ GW EX). inversion G as [|? ? G1 G2 G3]; subst.
    assert (LK : length kids = length (m_subs m)) by (rewrite <- G2; now rewrite map_length).
    assert (NIL : forall y j, y = x ++ [j] -> y <> x). { intros y j -> E. apply (f_equal (@length _)) in E. rewrite app_length in E. cbn in E. lia. }
    assert (KID : forall j, j < length (m_subs m) -> inn (x :: S) (x ++ [j])).
    { intros j Lj. split; [|split].
      - rewrite dsub_app, EX. cbn [dsub]. destruct (nth_error kids j) eqn:E; [discriminate|]. apply nth_error_None in E. lia.
      - intros [E|E]; [apply (NIL (x ++ [j]) j eq_refl); auto|]. now apply C in E.
      - right. exists x, j. split; auto. now left. }
    assert (INN : forall y, inn (x :: S) y <-> (inn S y /\ y <> x) \/ (exists j, j < length (m_subs m) /\ y = x ++ [j])).
    { intros y. split.
      - intros (Y1 & Y2 & Y3). assert (y <> x) by (intros ->; apply Y2; now left). destruct Y3 as [->|(z & j & -> & [->|Hz])].
        + left. split; auto. split; auto. split; [intros Q; apply Y2; now right|now left].
        + right. exists j. split; auto. destruct (dsub w (z ++ [j])) as [u|] eqn:E; [|congruence]. apply dsub_snoc in E as (m' & kids' & E1 & E2). rewrite EX in E1. injection E1 as <- <-. apply get_lt in E2. lia.
        + left. split; auto. split; auto. split; [intros Q; apply Y2; now right|right; eauto].
      - intros [[(Y1 & Y2 & Y3) NE]|(j & Lj & ->)]; auto. split; auto. split; [intros [Q|Q]; auto|]. destruct Y3 as [->|(z & j & -> & Hz)]; [now left|right; exists z, j; split; auto; now right]. }
    split; cbn [net t_in t_lab t_ord]; auto.
    - now rewrite EX.
    - intros j t Hj. rewrite dsub_app, EX. cbn [dsub]. rewrite <- G2, nth_error_map in Hj. destruct (nth_error kids j); [injection Hj as <-; auto|discriminate].
    - intros y z. split.
      + intros (Iy & Iz & (r & j & k & y' & z' & mr & kr & Ey & Ez & Er & LT)). assert (IR : In mr (p_methods P)). { assert (Gr := dsub_good P w r _ GW Er). now inversion Gr. }
        assert (JK : j <> k) by (intros ->; exact (AC mr IR k LT)).
        apply INN in Iy as [[Iy Ny]|(j1 & L1 & ->)], Iz as [[Iz Nz]|(j2 & L2 & ->)].
        * left. repeat (split; auto). exists r, j, k, y', z', mr, kr. auto.
        * right; right; right. exists j2. split; auto. split; auto. split; auto. split; auto. split; auto. split; auto.
          destruct (diverge S x y r j2 k z' C X2 Iy Ny Ez j y' Ey) as (x2 & E2 & _). exists r, j, k, y', x2, mr, kr. auto.
        * right; right; left. exists j1. split; auto. split; auto. split; auto. split; auto. split; auto. split; auto.
          destruct (diverge S x z r j1 j y' C X2 Iz Nz Ey k z' Ez) as (x2 & E2 & _). exists r, j, k, x2, z', mr, kr. auto.
        * right; left. exists j1, j2. split; auto. split; auto. split; auto. split; auto.
          destruct (snoc_split _ _ _ _ _ (eq_sym Ey)) as [(-> & -> & ->)|(a & A1 & A2)].
          -- apply app_inv_head in Ez. injection Ez as -> _. rewrite EX in Er. injection Er as <- _. auto.
          -- destruct (snoc_split _ _ _ _ _ (eq_sym Ez)) as [(-> & -> & ->)|(b & B1 & B2)].
             ++ exfalso. apply (f_equal (@length _)) in A1. rewrite app_length in A1. cbn in A1. lia.
             ++ rewrite A1 in B1. apply app_inv_head in B1. injection B1 as B1 _. contradiction.
      + intros [(Y1 & Y2 & N1 & N2 & _ & _ & D)|[(j & k & Lj & Lk & -> & -> & LT)|[(j & Lj & -> & Iz & Nz & _ & _ & D)|(k & Lk & -> & Iy & Ny & _ & _ & D)]]].
        * split; [|split]; auto; apply INN; auto.
        * split; [|split]; auto. exists x, j, k, [], [], m, kids. auto.
        * split; [|split]; auto; [apply INN; auto|]. destruct D as (r & j' & k' & x' & z' & mr & kr & Ex & Ez & Er & LT). exists r, j', k', (x' ++ [j]), z', mr, kr. split; auto. rewrite Ex, <- app_assoc. reflexivity.
        * split; [|split]; auto; [apply INN; auto|]. destruct D as (r & j' & k' & y' & x' & mr & kr & Ey & Ex & Er & LT). exists r, j', k', y', (x' ++ [k]), mr, kr. split; auto. split; auto. rewrite Ex, <- app_assoc. reflexivity.
  Qed.

  Lemma finite_nodes : exists N, forall y, isN y -> In y N.
  Proof.
    unfold isN. clear GW. induction w as [p a|m kids IH] using dtr_ind'.
    - exists []. intros [|j y] (m & k & E); discriminate.
    - assert (X : exists N, forall j k y, nth_error kids j = Some k -> (exists m kids, dsub k y = Some (DN m kids)) -> In (j, y) N).
      { clear -IH. induction IH as [|k kids (N1 & H1) _ (N2 & H2)]; [exists []; intros [|j]; discriminate|].
        exists (map (fun y => (0, y)) N1 ++ map (fun '(j, y) => (S j, y)) N2). intros [|j] k' y E X; apply in_or_app.
        - left. injection E as <-. apply in_map_iff. exists y. auto.
        - right. apply in_map_iff. exists (j, y). split; auto. eapply H2; eauto. }
      destruct X as (N & HN). exists ([] :: map (fun '(j, y) => j :: y) N). intros [|j y] (m' & k' & E); [now left|]. right. cbn [dsub] in E. destruct (nth_error kids j) as [k|] eqn:Ek; [|discriminate].
      apply in_map_iff. exists (j, y). split; auto. apply (HN j k y Ek). eauto.
  Qed.
  Lemma isN_app x l : l <> [] -> dsub w (x ++ l) <> None -> isN x.
  Proof. intros N E. rewrite dsub_app in E. destruct (dsub w x) as [[p a|m kids]|] eqn:Q; [destruct l; [contradiction|elim E; reflexivity]|exists m, kids; auto|congruence]. Qed.
  Lemma first_closed S : forall y, isN y -> ~ In y S -> exists x, isN x /\ ~ In x S /\ hangs S x.
  Proof.
    induction y as [|j y IH] using rev_ind; intros N I; [exists []; split; auto; split; auto; now left|].
    assert (isN y) by (apply (isN_app y [j]); [discriminate|destruct N as (m & k & ->); discriminate]).
    destruct (in_dec tid_eq_dec y S) as [H1|H1]; [|auto]. exists (y ++ [j]). split; auto. split; auto. right. eauto.
  Qed.
  Lemma open_all n : forall S, pclosed S -> (forall y, In y S -> isN y) -> (forall N, (forall y, In y N -> isN y /\ ~ In y S) -> NoDup N -> length N <= n) ->
    exists S', refines P (net S) (net S') /\ (forall y, In y S' <-> isN y).
  Proof.
    induction n as [|n IH]; intros S C IS B; destruct finite_nodes as (N & HN).
    - exists S. split; [constructor|]. intros y. split; auto. intros Hy. destruct (in_dec tid_eq_dec y S) as [H|H]; auto.
      specialize (B [y]). cbn [length] in B. assert (1 <= 0); [|lia]. apply B; [intros z [<-|[]]; auto|constructor; [intros []|constructor]].
    - destruct (Forall_Exists_dec (fun y => isN y -> In y S)) with (l := N) as [A|A].
      + intros y. destruct (in_dec tid_eq_dec y S) as [H|H]; [left; auto|]. destruct (dsub w y) as [[p a|m kids]|] eqn:E; [left; intros (m & k & Q); congruence|right; intros Q; apply H, Q; exists m, kids; auto|left; intros (m & k & Q); congruence].
      + exists S. split; [constructor|]. intros y. split; auto. intros Hy. rewrite Forall_forall in A. auto.
      + apply Exists_exists in A as (y & Hy & NY). destruct (dsub w y) as [[p a|m0 kids0]|] eqn:Ey; [elim NY; intros (m & k & Q); congruence| |elim NY; intros (m & k & Q); congruence].
        assert (isN y) by (exists m0, kids0; auto). assert (~ In y S) by (intros Q; apply NY; auto). destruct (first_closed S y) as (x & (m & kids & Ex) & X2 & X3); auto.
        destruct (IH (x :: S)) as (S' & R & HS).
        * intros z j [Q|Q]; [|right; eapply C; eauto]. subst x. destruct X3 as [X3|(x' & j' & X3 & I)]; [now apply app_eq_nil in X3 as [_ X3]|]. apply app_inj_tail in X3 as [-> _]. now right.
        * intros z [<-|Hz]; auto. exists m, kids. auto.
        * intros N' H' ND. assert (BQ := B (x :: N')). cbn [length] in BQ. apply le_S_n, BQ; clear BQ.
          -- intros z [<-|Hz]; [split; auto; exists m, kids; auto|]. destruct (H' z Hz) as [Z1 Z2]. split; auto. intros Q. apply Z2. now right.
          -- constructor; auto. intros Q. apply (H' x Q). now left.
        * exists S'. split; auto. econstructor; [|exact R]. apply (open_step S x m kids); auto. split; [congruence|auto].
  Qed.

  (** The tags of the leafs do not matter here. *)
  Theorem dtr_solution s L : dlab w = p_init P -> NoDup L -> (forall x, In x L <-> exists p a, dsub w x = Some (DA p a)) ->
    (forall i j x y, nth_error L i = Some x -> nth_error L j = Some y -> dt_before w x y -> i < j) ->
    forall plan, Forall2 (fun x a => exists p, dsub w x = Some (DA p a)) L plan -> executable P s plan -> goal_state P (after P s plan) ->
    solves P s (initial_network P) plan.
  Proof.
    intros LB ND IL OR plan PL EX GO. destruct finite_nodes as (N & HN).
    destruct (open_all (length N) []) as (S & R & HS).
    { intros x j []. } { intros y []. } { intros N' H' ND'. apply NoDup_incl_length; auto. intros y Hy. apply HN. now apply H'. }
    assert (TE : teq (net []) (initial_network P)).
    { split; cbn [net initial_network t_in t_lab t_ord].
      - intros x. split; [intros (_ & _ & [H|(y & j & _ & [])]); auto|intros ->]. split; [discriminate|]. split; [intros []|now left].
      - intros x (_ & _ & [->|(y & j & _ & [])]). exact LB.
      - intros x y. split; [|intros []]. intros ((_ & _ & [->|(z & j0 & _ & [])]) & _ & (r & j & k & x' & y' & m & kids & E & _)). destruct r; discriminate. }
    apply refines_refn in R as (n & R). destruct (refn_teq P n _ _ _ TE R) as (tn' & R' & TE').
    assert (IN : forall y, inn S y <-> exists p a, dsub w y = Some (DA p a)).
    { intros y. split.
      - intros (Y1 & Y2 & _). destruct (dsub w y) as [[p a|m kids]|] eqn:E; [eauto| |congruence]. elim Y2. apply HS. exists m, kids. auto.
      - intros (p & a & E). split; [congruence|]. split; [intros Q; apply HS in Q as (m & k & Q); congruence|]. destruct (list_eq_dec Nat.eq_dec y []) as [->|NE]; [now left|]. destruct (@exists_last _ y NE) as (x & j & ->). right. exists x, j. split; auto. apply HS. apply (isN_app x [j]); [discriminate|congruence]. }
    assert (PM : plan = map (t_lab (net S)) L). { clear -PL. induction PL as [|x a L plan (p & E) _ IH]; auto. cbn [map net t_lab]. rewrite E. cbn [dlab]. f_equal. exact IH. }
    assert (LAB : map (t_lab (net S)) L = map (t_lab tn') L). { apply map_ext_in. intros x Hx. apply (teq_lab _ _ TE'). cbn. apply IN. now apply IL. }
    exists tn', L. split; [apply refines_refn; eauto|]. split; [|split; [split; [auto|split]|split; [congruence|auto]]].
    - intros x Hx. apply (teq_in _ _ TE') in Hx. rewrite <- (teq_lab _ _ TE' x Hx). cbn in Hx |- *. apply IN in Hx as (p & a & E). rewrite E. cbn [dlab]. assert (G := dsub_good P w x _ GW E). now inversion G.
    - intros x. rewrite IL, <- IN. apply (teq_in _ _ TE').
    - intros i j x y Hi Hj O. apply (teq_ord _ _ TE') in O as (_ & _ & O). eauto.
  Qed.
End Net.
