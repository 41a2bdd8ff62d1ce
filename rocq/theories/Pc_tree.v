(** Every solution comes from a decomposition tree with an order of its actions. *)
From Coq Require Import Relations Relation_Operators.
From Verif Require Import Base Htn_problem Htn_spec Htn_sem Posog_order Pp_sem.

Fixpoint dheight (w : dtr) : nat := match w with DA _ _ => 0 | DN _ kids => S (list_max (map dheight kids)) end.
Definition leaf_at (w : dtr) (x : list nat) (a : nat) : Prop := exists tag, dsub w x = Some (DA tag a).
(** [L] lists the actions of [w] in an order compatible with its methods; [plan] are their names. *)
Record dtr_order (w : dtr) (L : list (list nat)) (plan : list nat) : Prop := {
  do_nodup : NoDup L;
  do_all : forall x, In x L <-> exists a, leaf_at w x a;
  do_ord : forall i j x y, nth_error L i = Some x -> nth_error L j = Some y -> dt_before w x y -> i < j;
  do_plan : Forall2 (leaf_at w) L plan }.

Definition antichain (tn : tnet) : Prop := forall x z, t_in tn x -> t_in tn (x ++ z) -> z = [].

Section Extract.
  Variable P : problem.
  Hypothesis AC : acyclic_methods P.

  Lemma step_antichain tn x m tn' : decomposes P tn x m tn' -> antichain tn -> antichain tn'.
  Proof.
    intros D A y z Hy Hz. apply (d_in' _ _ _ _ _ D) in Hy. apply (d_in' _ _ _ _ _ D) in Hz. assert (Ix := d_in _ _ _ _ _ D).
    destruct Hy as [[Y1 Y2]|(j & Lj & ->)], Hz as [[Z1 Z2]|(k & Lk & Ez)].
    - exact (A y z Y1 Z1).
    - destruct z as [|b z] using rev_ind; auto. clear IHz. rewrite app_assoc in Ez. apply app_inj_tail in Ez as [Ez _]. elim Y2. rewrite <- Ez in Ix. rewrite (A y z Y1 Ix), app_nil_r in Ez. auto.
    - rewrite <- app_assoc in Z1. apply (A x ([j] ++ z) Ix) in Z1. discriminate.
    - destruct z as [|b z] using rev_ind; auto. exfalso. clear IHz. apply (f_equal (@length nat)) in Ez. rewrite !app_length in Ez. cbn in Ez. lia.
  Qed.

  (** The decomposition trees of the tasks of [tn] that lead to [tn']. *)
  Record grown (tn tn' : tnet) (w : tid -> dtr) : Prop := {
    g_good : forall x, t_in tn x -> good P (w x) /\ dlab (w x) = t_lab tn x;
    g_in : forall y, t_in tn' y <-> exists x z a, t_in tn x /\ y = x ++ z /\ leaf_at (w x) z a;
    g_lab : forall x z a, t_in tn x -> leaf_at (w x) z a -> t_lab tn' (x ++ z) = a;
    g_inner : forall x z z' a a', t_in tn x -> leaf_at (w x) z a -> leaf_at (w x) z' a' -> dt_before (w x) z z' -> t_ord tn' (x ++ z) (x ++ z');
    g_cross : forall x x' z z' a a', t_in tn x -> t_in tn x' -> x <> x' -> t_ord tn x x' -> leaf_at (w x) z a -> leaf_at (w x') z' a' -> t_ord tn' (x ++ z) (x' ++ z') }.

  Lemma grow tn tn' : refines P tn tn' -> antichain tn -> (forall y, t_in tn' y -> primitive P (t_lab tn' y)) -> exists w, grown tn tn' w.
  Proof.
    intros R. induction R as [tn|tn x m tn1 tn2 D R IH]; intros A PR.
    - exists (fun x => DA [] (t_lab tn x)). assert (LF : forall x z a, leaf_at (DA [] (t_lab tn x)) z a <-> z = [] /\ a = t_lab tn x).
      { intros x z a. split; [intros (tag & E); destruct z; [cbn in E; injection E as _ <-; auto|discriminate]|]. intros [-> ->]. now exists []. }
      constructor.
      + intros x Hx. split; auto. constructor. auto.
      + intros y. split; [intros Hy; exists y, [], (t_lab tn y); rewrite app_nil_r, LF; auto|]. intros (x & z & a & Hx & -> & H). apply LF in H as [-> _]. now rewrite app_nil_r.
      + intros x z a Hx H. apply LF in H as [-> ->]. now rewrite app_nil_r.
      + intros x z z' a a' Hx H _ (r & j & k & x' & y' & m & kids & E & _). apply LF in H as [-> _]. destruct r; discriminate.
      + intros x x' z z' a a' _ _ _ O H H'. apply LF in H as [-> _]. apply LF in H' as [-> _]. now rewrite !app_nil_r.
    - destruct (IH (step_antichain _ _ _ _ D A) PR) as (w1 & [G1 G2 G3 G4 G5]). assert (Ix := d_in _ _ _ _ _ D).
      set (n := length (m_subs m)). set (kids := map (fun j => w1 (x ++ [j])) (seq 0 n)).
      exists (fun y => if list_eq_dec Nat.eq_dec y x then DN m kids else w1 y).
      assert (NEW : forall j, j < n -> t_in tn1 (x ++ [j])) by (intros j Lj; apply (d_in' _ _ _ _ _ D); right; eauto).
      assert (OLD : forall y, t_in tn y -> y <> x -> t_in tn1 y) by (intros y Hy N; apply (d_in' _ _ _ _ _ D); auto).
      assert (KJ : forall j u, nth_error kids j = Some u <-> j < n /\ u = w1 (x ++ [j])) by (intros j u; unfold kids; exact (map_seq_nth (fun j => w1 (x ++ [j])) n j u)).
      assert (LF : forall z a, leaf_at (DN m kids) z a <-> exists j z', j < n /\ z = j :: z' /\ leaf_at (w1 (x ++ [j])) z' a).
      { intros z a. split.
        - intros (tag & E). destruct z as [|j z]; [discriminate|]. cbn [dsub] in E. destruct (nth_error kids j) as [u|] eqn:Eu; [|discriminate]. apply KJ in Eu as [Lj ->]. exists j, z. split; auto. split; auto. now exists tag.
        - intros (j & z' & Lj & -> & (tag & E)). exists tag. cbn [dsub]. rewrite (proj2 (KJ j _) (conj Lj eq_refl)). exact E. }
      assert (AP : forall j z, x ++ j :: z = (x ++ [j]) ++ z) by (intros j z; now rewrite <- app_assoc).
      constructor.
      + intros y Hy. destruct (list_eq_dec Nat.eq_dec y x) as [->|N].
        * split; [|cbn; symmetry; exact (d_lab _ _ _ _ _ D)]. constructor; [exact (d_method _ _ _ _ _ D)| |].
          -- apply nth_ext with (d := 0) (d' := 0); [unfold kids; now rewrite !map_length, seq_length|]. intros j Lj. unfold kids in Lj. rewrite !map_length, seq_length in Lj.
             assert (Ej : nth_error (m_subs m) j = Some (nth j (m_subs m) 0)) by now apply nth_error_nth'. rewrite <- (d_lab_new _ _ _ _ _ D j _ Ej), <- (proj2 (G1 _ (NEW j Lj))).
             apply nth_error_nth. rewrite nth_error_map, (proj2 (KJ j _) (conj Lj eq_refl)). reflexivity.
          -- apply Forall_forall. intros u Hu. apply In_nth_error in Hu as (j & Hj). apply KJ in Hj as [Lj ->]. apply G1. auto.
        * destruct (G1 y (OLD y Hy N)) as [H1 H2]. split; auto. rewrite H2. now apply (d_lab_old _ _ _ _ _ D).
      + intros y. rewrite G2. split.
        * intros (x1 & z & a & H1 & -> & H3). apply (d_in' _ _ _ _ _ D) in H1 as [[H1 N]|(j & Lj & ->)].
          -- exists x1, z, a. destruct (list_eq_dec Nat.eq_dec x1 x); [contradiction|auto].
          -- exists x, (j :: z), a. destruct (list_eq_dec Nat.eq_dec x x); [|congruence]. split; auto. split; [symmetry; apply AP|]. apply LF. eauto.
        * intros (x1 & z & a & H1 & -> & H3). destruct (list_eq_dec Nat.eq_dec x1 x) as [->|N]; [|exists x1, z, a; auto]. apply LF in H3 as (j & z' & Lj & -> & H). exists (x ++ [j]), z', a. split; auto.
      + intros y z a Hy H. destruct (list_eq_dec Nat.eq_dec y x) as [->|N]; [|apply G3; auto]. apply LF in H as (j & z' & Lj & -> & H). rewrite (AP j z'). apply G3; auto.
      + intros y z z' a a' Hy H H' B. destruct (list_eq_dec Nat.eq_dec y x) as [->|N]; [|eapply G4; eauto].
        apply LF in H as (j & u & Lj & -> & H). apply LF in H' as (k & u' & Lk & -> & H'). rewrite (AP j u), (AP k u'). destruct B as (r & j1 & k1 & x1 & y1 & m1 & kids1 & E1 & E2 & E3 & LT). destruct r as [|c r].
        * cbn in E1, E2, E3. injection E1 as <- <-. injection E2 as <- <-. injection E3 as <- <-. assert (NJ : j <> k) by (intros ->; exact (AC m (d_method _ _ _ _ _ D) k LT)).
          apply (G5 _ _ u u' a a'); auto; [intros E; apply app_inj_tail in E as [_ E]; contradiction|]. apply (d_ord _ _ _ _ _ D). right. left. exists j, k. auto.
        * cbn [app] in E1, E2. injection E1 as <- ->. injection E2 as -> ->. cbn [dsub] in E3. rewrite (proj2 (KJ j _) (conj Lj eq_refl)) in E3. eapply G4; eauto. exists r, j1, k1, x1, y1, m1, kids1. auto.
      + intros y y' z z' a a' Hy Hy' N O H H'. assert (SNOC : forall j, x ++ [j] <> x) by (intros j E; apply (f_equal (@length nat)) in E; rewrite app_length in E; cbn in E; lia).
        destruct (list_eq_dec Nat.eq_dec y x) as [->|Ny], (list_eq_dec Nat.eq_dec y' x) as [->|Ny']; try contradiction.
        * apply LF in H as (j & u & Lj & -> & H). rewrite (AP j u). apply (G5 _ _ u z' a a'); auto.
          -- intros E. rewrite <- E in Hy'. assert (Z := A x [j] Ix Hy'). discriminate.
          -- apply (d_ord _ _ _ _ _ D). right. right. left. exists j. auto.
        * apply LF in H' as (j & u & Lj & -> & H'). rewrite (AP j u). apply (G5 _ _ z u a a'); auto.
          -- intros E. rewrite E in Hy. assert (Z := A x [j] Ix Hy). discriminate.
          -- apply (d_ord _ _ _ _ _ D). right. right. right. exists j. auto.
        * apply (G5 y y' z z' a a'); auto. apply (d_ord _ _ _ _ _ D). left. auto.
  Qed.

  Theorem solution_dtr plan : solution P plan -> exists w L, good P w /\ dlab w = p_init P /\ dtr_order w L plan /\ executable P (initial_state P) plan /\ goal_state P (after P (initial_state P) plan).
  Proof.
    intros (tn' & L & R & PR & (L1 & L2 & L3) & -> & EX & GO). destruct (grow _ _ R) as (w & [G1 G2 G3 G4 G5]); auto.
    - intros x z E1 E2. cbn in E1, E2. subst x. exact E2.
    - assert (I0 : t_in (initial_network P) []) by reflexivity. exists (w []), L. destruct (G1 [] I0) as [H1 H2]. split; auto. split; auto. split; auto.
      assert (IN : forall x, In x L <-> exists a, leaf_at (w []) x a).
      { intros x. rewrite L2, G2. split; [intros (x0 & z & a & E & -> & H); cbn in E; subst x0; eauto|]. intros (a & H). exists [], x, a. auto. }
      constructor; auto.
      + intros i j x y Hi Hj B. apply (L3 i j x y Hi Hj). destruct (proj1 (IN x) (nth_error_In _ _ Hi)) as (a & Ha). destruct (proj1 (IN y) (nth_error_In _ _ Hj)) as (b & Hb). exact (G4 [] x y a b I0 Ha Hb B).
      + assert (Q : forall x, In x L -> leaf_at (w []) x (t_lab tn' x)). { intros x Hx. apply IN in Hx as (a & Ha). assert (E := G3 [] x a I0 Ha). cbn [app] in E. now rewrite E. }
        clear - Q. induction L as [|x L IH]; constructor; [apply Q; now left|]. apply IH. intros y Hy. apply Q. now right.
  Qed.
End Extract.
