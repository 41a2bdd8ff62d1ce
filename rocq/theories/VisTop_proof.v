(** The topological sorting of the visited list (VisitedList.cpp 281-332) yields a linearisation of the plan steps of the node. *)
From Coq Require Import NArith ZArith Relations.
From Verif Require Import Base Rel Htn_model Htn_spec Htn_sem Htn_rep Heap_model Heap_proof Tab_proof Scc_model Reach_proof Vis_model.

Lemma upd_eq {A} (m : nat -> A) x v : upd m x v x = v.
Proof. unfold upd. now rewrite Nat.eqb_refl. Qed.
Lemma upd_neq {A} (m : nat -> A) x v y : y <> x -> upd m x v y = m y.
Proof. intros N. unfold upd. now rewrite (proj2 (Nat.eqb_neq _ _) N). Qed.

Lemma memb_in x l : memb x l = true <-> In x l.
Proof. unfold memb. rewrite existsb_exists. split; [intros (y & H & E); apply Nat.eqb_eq in E; now subst|intros H; exists x; split; auto; apply Nat.eqb_refl]. Qed.

Lemma ins_fold l : forall s, asc s -> asc (fold_left (fun s y => ins y s) l s) /\ forall y, In y (fold_left (fun s y => ins y s) l s) <-> In y l \/ In y s.
Proof.
  induction l as [|a l IH]; intros s A; cbn; [split; auto; tauto|]. destruct (IH (ins a s)) as [I1 I2]; [now apply ins_asc|]. split; auto.
  intros y. rewrite I2, ins_in. intuition.
Qed.

Lemma upd_fold x l : forall pm, (forall y, asc (pm y)) ->
  let pm' := fold_left (fun pm y => upd pm y (ins x (pm y))) l pm in
  (forall y, asc (pm' y)) /\ forall y z, In z (pm' y) <-> In z (pm y) \/ (z = x /\ In y l).
Proof.
  induction l as [|a l IH]; intros pm A; cbn; [split; auto; intuition|].
  destruct (IH (upd pm a (ins x (pm a)))) as [I1 I2].
  { intros y. unfold upd. destruct (Nat.eqb y a); auto. now apply ins_asc. }
  split; auto. intros y z. rewrite I2. unfold upd. destruct (Nat.eqb_spec y a) as [->|N]; [rewrite ins_in|]; intuition. congruence.
Qed.

Lemma sum_upd (f g : nat -> nat) x l : NoDup l -> In x l -> g x = 0 -> (forall y, y <> x -> f y = g y) ->
  list_sum (map f l) = f x + list_sum (map g l).
Proof.
  induction l as [|a l IH]; intros N I G E; [destruct I|]. inversion N as [|? ? N1 N2]; subst. change (f a + list_sum (map f l) = f x + (g a + list_sum (map g l))). destruct I as [->|I].
  - assert (Q : map f l = map g l). { apply map_ext_in. intros y Hy. apply E. intros ->. auto. } rewrite Q. lia.
  - rewrite IH by auto. rewrite (E a) by (intros ->; auto). lia.
Qed.

Lemma map_seq_get {A B} (g : option A -> B) (l : list A) : map (fun i => g (get l i)) (seq 0 (length l)) = map (fun x => g (Some x)) l.
Proof. induction l as [|x l IH]; cbn; auto. f_equal. rewrite <- IH, <- seq_shift, map_map. reflexivity. Qed.

Section Top.
  Variables (al : nat -> list Z) (h : list pstep) (n : node).
  Hypothesis AL : forall k, length (al k) = k.
  Hypothesis CL : forall i j, edge h i j -> j < length h.
  Hypothesis HL : forall i, In i (heads n) -> i < length h.
  Hypothesis ND : NoDup (heads n).
  Hypothesis AC : forall i, live h n i -> ~ tc h i i.
  Hypothesis HM : forall i r, live h n i -> In r (heads n) -> ~ tc h i r.

  Lemma live_bound i : live h n i -> i < length h.
  Proof.
    intros (r & Hr & Hp). specialize (HL r Hr). clear - CL HL Hp. eapply (rtc_inv_l nat (edge h) (fun k => k < length h)); [|exact HL|exact Hp].
    intros a b _ E. eauto.
  Qed.
  Lemma live_edge i j : live h n i -> edge h i j -> live h n j.
  Proof. intros H E. eapply live_step; eauto. now apply rt_step. Qed.

  Definition firsts : list nat := n_prim n ++ n_abs n.
  Lemma firsts_in x : In x firsts <-> In x (heads n).
  Proof. unfold firsts, heads. rewrite !in_app_iff. tauto. Qed.
  Lemma firsts_nodup : NoDup firsts.
  Proof. eapply Permutation_NoDup; [|exact ND]. unfold firsts, heads. apply Permutation_app_comm. Qed.

  Definition tsk (x : nat) : nat := match get h x with Some ps => ps_task ps | None => 0 end.
  Definition sucs (x : nat) : list nat := match get h x with Some ps => ps_succ ps | None => [] end.
  Lemma sucs_edge x y : In y (sucs x) <-> edge h x y.
  Proof.
    unfold sucs, edge. split.
    - destruct (get h x) as [ps|]; [eauto|intros []].
    - intros (ps & -> & H). auto.
  Qed.

  Definition rest (done : list nat) : nat := list_sum (map (fun i => if memb i done then 0 else length (sucs i)) (seq 0 (length h))).

  Definition maps_ok (done : list nat) (sm pm : nat -> list nat) (tm : nat -> nat) : Prop :=
    (forall x, asc (sm x)) /\ (forall x y, In y (sm x) <-> In x done /\ edge h x y) /\
    (forall y, asc (pm y)) /\ (forall x y, In x (pm y) <-> In x done /\ edge h x y) /\
    (forall x, In x done -> tm x = tsk x).

  Lemma collect_ok fuel : forall todo done sm pm tm,
    length todo + rest done <= fuel -> NoDup done ->
    (forall x, In x todo \/ In x done -> live h n x) -> (forall x, In x (heads n) -> In x todo \/ In x done) ->
    (forall x y, In x done -> edge h x y -> In y todo \/ In y done) ->
    maps_ok done sm pm tm ->
    exists D sm' pm' tm', ts_collect fuel h todo done sm pm tm = Some (sm', pm', tm') /\ NoDup D /\ (forall x, In x D <-> live h n x) /\ maps_ok D sm' pm' tm'.
  Proof.
    induction fuel as [|f IH]; intros todo done sm pm tm LF N LV HD CD MO.
    - destruct todo; [|cbn in LF; lia]. cbn. exists done, sm, pm, tm. split; auto. split; auto. split; auto. clear - LV HD CD.
      intros x. split; [intros H; apply LV; auto|]. intros (r & Hr & Hp). apply clos_rt_rt1n in Hp.
      assert (Hd : In r done) by (destruct (HD r Hr) as [[]|]; auto). clear Hr. induction Hp; auto. apply IHHp. destruct (CD x y) as [[]|]; auto.
    - destruct todo as [|x todo].
      { cbn. exists done, sm, pm, tm. split; auto. split; auto. split; auto. clear - LV HD CD.
        intros x. split; [intros H; apply LV; auto|]. intros (r & Hr & Hp). apply clos_rt_rt1n in Hp.
        assert (Hd : In r done) by (destruct (HD r Hr) as [[]|]; auto). clear Hr. induction Hp; auto. apply IHHp. destruct (CD x y) as [[]|]; auto. }
      cbn [ts_collect]. destruct (memb x done) eqn:M.
      + apply memb_in in M. apply IH; auto; cbn in LF; try lia.
        * intros y Hy. apply LV. cbn. tauto.
        * intros y Hy. destruct (HD y Hy) as [[->|]|]; auto.
        * intros y z Hy E. destruct (CD y z Hy E) as [[->|]|]; auto.
      + assert (NI : ~ In x done) by (intros Q; apply memb_in in Q; congruence).
        assert (Lx : live h n x) by (apply LV; cbn; auto). pose proof (live_bound x Lx) as Bx.
        destruct (get_some h x Bx) as (ps & G). rewrite G. cbn [obind].
        assert (Sx : sucs x = ps_succ ps) by (unfold sucs; now rewrite G).
        assert (RS : rest done = length (ps_succ ps) + rest (x :: done)).
        { unfold rest. rewrite <- Sx. rewrite (sum_upd _ (fun i => if memb i (x :: done) then 0 else length (sucs i)) x).
          - now rewrite M.
          - apply seq_NoDup.
          - apply in_seq. lia.
          - cbn. now rewrite Nat.eqb_refl.
          - intros y Ny. cbn. now rewrite (proj2 (Nat.eqb_neq y x) Ny). }
        refine (IH (todo ++ ps_succ ps) (x :: done) _ _ _ _ _ _ _ _ _).
        * cbn in LF. rewrite app_length. lia.
        * constructor; auto.
        * intros y [Hy|[<-|Hy]]; [|assumption|apply LV; auto]. apply in_app_iff in Hy as [Hy|Hy]; [apply LV; cbn; auto|].
          eapply live_edge; eauto. apply sucs_edge. now rewrite Sx.
        * intros y Hy. destruct (HD y Hy) as [[->|Hy']|Hy']; cbn; auto. left. apply in_app_iff. auto.
        * intros y z [<-|Hy] E.
          -- left. apply in_app_iff. right. rewrite <- Sx. now apply sucs_edge.
          -- destruct (CD y z Hy E) as [[->|Hz]|Hz]; cbn; auto. left. apply in_app_iff. auto.
        * destruct MO as (M1 & M2 & M3 & M4 & M5). destruct (ins_fold (ps_succ ps) (sm x) (M1 x)) as [F1 F2].
          destruct (upd_fold x (ps_succ ps) pm M3) as [U1 U2].
          split; [|split; [|split; [exact U1|split]]].
          -- intros y. unfold upd. destruct (Nat.eqb y x); auto.
          -- intros y z. unfold upd. destruct (Nat.eqb_spec y x) as [->|Ny].
             ++ rewrite F2, M2, <- Sx, sucs_edge. cbn. intuition.
             ++ rewrite M2. cbn. intuition. congruence.
          -- intros y z. rewrite U2, M4, <- Sx, sucs_edge. cbn. intuition; subst; auto.
          -- intros y Hy. unfold upd. destruct (Nat.eqb_spec y x) as [->|Ny]; [unfold tsk; now rewrite G|]. apply M5. destruct Hy; auto. congruence.
  Qed.

  Definition ent (y : nat) : Z * Z := (Z.of_nat (tsk y), Z.of_nat y).
  Definition orderly (E : list nat) : Prop := forall L1 x L2, E = L1 ++ x :: L2 -> forall p, live h n p -> edge h p x -> In p L1.

  Section Emit.
    Variables (D : list nat) (sm : nat -> list nat) (tm : nat -> nat).

    Hypothesis DI : forall x, In x D <-> live h n x.
    Hypothesis S1 : forall x, asc (sm x).
    Hypothesis S2 : forall x y, In y (sm x) <-> In x D /\ edge h x y.
    Hypothesis TM : forall x, In x D -> tm x = tsk x.

    Record emitting (E B : list nat) (pm : nat -> list nat) (hp : heap) : Prop := {
      em_heap : HInv hp;
      em_elems : Permutation (elems hp) (map ent B);
      em_nodup : NoDup (E ++ B);
      em_live : forall x, In x (E ++ B) -> live h n x;
      em_ord : orderly E;
      em_pm : forall x y, live h n y -> (In x (pm y) <-> live h n x /\ edge h x y /\ ~ In x E);
      em_B : forall y, In y B -> forall p, live h n p -> edge h p y -> In p E;
      em_all : forall y, live h n y -> ~ In y E -> pm y = [] -> In y B }.

    Lemma int_min_le k : (int_min <= Z.of_nat k)%Z.
    Proof. unfold int_min. lia. Qed.

    Lemma NoDup_snoc {A} (l : list A) x : NoDup (l ++ [x]) <-> NoDup l /\ ~ In x l.
    Proof.
      rewrite nodup_app_iff. cbn. split.
      - intros (H1 & _ & H3). split; auto. intros Hx. apply (H3 x); auto.
      - intros (H1 & H2). split; auto. split; [constructor; [intros []|constructor]|]. intros y Hy [<-|[]]. auto.
    Qed.

    Lemma emit_ok fuel : forall E B pm hp, emitting E B pm hp -> length D - length E <= fuel ->
      exists L, ts_emit fuel al sm tm pm hp = Some (map tsk L) /\ NoDup (E ++ L) /\ (forall x, In x (E ++ L) <-> live h n x) /\ orderly (E ++ L).
    Proof.
      induction fuel as [|f IH]; intros E B pm hp EM LF; pose proof EM as [Hi He Hn Hl Ho Hp HB Ha].
      all: assert (EQ : heap_isEmpty hp = true <-> B = []) by
        (unfold heap_isEmpty; rewrite Nat.eqb_eq; pose proof (elems_length hp) as EL; pose proof (Permutation_length He) as PL; rewrite map_length in PL;
         unfold heap_size in EL; pose proof (hi_next _ Hi); destruct B; cbn in PL; split; intros; try lia; try congruence; try discriminate).
      all: destruct B as [|b B0] eqn:EB.
      1, 3: rewrite (proj2 EQ eq_refl) || cbn [ts_emit]; try rewrite (proj2 EQ eq_refl); exists []; split; [cbn [ts_emit]; try rewrite (proj2 EQ eq_refl); reflexivity|]; rewrite app_nil_r in *.
      1, 2: split; [auto|split; [|auto]]; intros x; split; [intros Hx; apply Hl; auto|].
      1, 2: intros Lx; destruct (in_dec Nat.eq_dec x E) as [|NE]; auto; exfalso;
        assert (W : well_founded (clos_trans nat (fun a b => edge h a b /\ live h n a))) by
          (apply (fin_wf _ (length h)); [intros a c Q; apply tc_first in Q as (z & [Q _] & _); eapply edge_lt; eauto|intros a c d; apply t_trans|
             intros a Q; assert (La : live h n a) by (apply tc_first in Q as (z & [_ La] & _); exact La); apply (AC a La); revert Q; apply tc_mono; tauto]);
        revert Lx NE; induction x as [x IHx] using (well_founded_induction W); intros Lx NE;
        destruct (pm x) as [|p r] eqn:Q; [destruct (Ha x Lx NE Q)|]; destruct (proj1 (Hp p x Lx)) as (Lp & Ep & NP); [rewrite Q; left; auto|]; apply (IHx p); auto; apply t_step; auto.
      - (* no fuel *) exfalso. assert (Q : length (E ++ b :: B0) <= length D).
        { apply NoDup_incl_length; auto. intros x Hx. apply DI. auto. }
        rewrite app_length in Q. cbn in Q. lia.
      - assert (HE : heap_isEmpty hp = false) by (destruct (heap_isEmpty hp); auto; destruct EQ as [Q _]; now specialize (Q eq_refl)).
        cbn [ts_emit]. rewrite HE.
        destruct (heap_pop_ok hp Hi) as (hp1 & k & v & E1 & I1 & K1 & V1 & P1 & _).
        { intros Z. rewrite Z in He. apply Permutation_nil in He. discriminate. }
        rewrite K1, V1. cbn [obind]. rewrite E1. cbn [obind].
        assert (KV : In (k, v) (map ent (b :: B0))) by (eapply Permutation_in; [exact He|]; eapply Permutation_in; [symmetry; exact P1|left; auto]).
        apply in_map_iff in KV as (id & Eid & Iid). unfold ent in Eid. injection Eid as Ek Ev. subst k v. rewrite !Nat2Z.id.
        apply in_split in Iid as (B1 & B2 & EB2).
        assert (P2 : Permutation (elems hp1) (map ent (B1 ++ B2))).
        { apply Permutation_cons_inv with (a := ent id). eapply Permutation_trans; [symmetry; exact P1|]. eapply Permutation_trans; [exact He|].
          rewrite EB2, !map_app. cbn. symmetry. apply Permutation_middle. }
        assert (Hn2 : NoDup (E ++ id :: B1 ++ B2)).
        { eapply Permutation_NoDup; [|exact Hn]. rewrite EB2. apply Permutation_app_head. symmetry. apply Permutation_middle. }
        assert (Bin : forall y, In y (b :: B0) <-> y = id \/ In y (B1 ++ B2)).
        { intros y. rewrite EB2. rewrite !in_app_iff. cbn. intuition. }
        assert (Lid : live h n id) by (apply Hl; apply in_app_iff; right; apply Bin; auto).
        assert (NEid : ~ In id E /\ ~ In id (B1 ++ B2)).
        { apply nodup_app_iff in Hn2 as (_ & Q1 & Q2). inversion Q1; subst. split; auto. intros Q. apply (Q2 id); auto. now left. }
        clear EB EB2 He P1.
        (* releasing the successors *)
        assert (REL : forall todo pref pm' hp' B', NoDup (pref ++ todo) -> (forall y, In y (pref ++ todo) <-> edge h id y) ->
           HInv hp' -> Permutation (elems hp') (map ent B') -> NoDup (E ++ [id] ++ B') ->
           (forall x, In x B' -> live h n x) ->
           (forall x y, live h n y -> (In x (pm' y) <-> live h n x /\ edge h x y /\ ~ In x E /\ ~ (x = id /\ In y pref))) ->
           (forall y, In y B' -> forall p, live h n p -> edge h p y -> In p (E ++ [id])) ->
           (forall y, In y B' -> In y todo -> False) ->
           (forall y, live h n y -> ~ In y E -> y <> id -> ~ In y todo -> pm' y = [] -> In y B') ->
           exists pm2 hp2 B2', ofold (ts_release al tm id) todo (pm', hp') = Some (pm2, hp2) /\ emitting (E ++ [id]) B2' pm2 hp2).
        { induction todo as [|y todo IHt]; intros pref pm' hp' B' N1 N2 H1 H2 H3 H4 H5 H6 H7 H8.
          - rewrite app_nil_r in *. cbn. exists pm', hp', B'. split; auto. split; auto.
            + now rewrite <- app_assoc.
            + intros x Hx. rewrite <- app_assoc in Hx. apply in_app_iff in Hx as [Hx|[<-|Hx]]; auto. apply Hl, in_app_iff. auto.
            + intros L1 x L2 Q p Lp Ep.
              destruct L2 as [|z L2] using rev_ind.
              * apply app_inj_tail in Q as [<- <-]. apply (HB id); auto. apply Bin; auto.
              * rewrite app_comm_cons, app_assoc in Q. apply app_inj_tail in Q as [Q _]. eapply Ho; eauto.
            + intros x y Ly. rewrite H5 by auto. rewrite in_app_iff. cbn. split.
              * intros (A1 & A2 & A3 & A4). split; auto. split; auto. intros [|[<-|[]]]; auto. apply A4. split; auto. now apply N2.
              * intros (A1 & A2 & A3). split; auto. split; auto. split; auto. intros [-> _]. auto.
            + intros y Ly NE Q. apply H8; auto; [intros A; apply NE, in_app_iff; auto|]. intros ->. apply NE, in_app_iff. right. now left.
          - assert (Ey : edge h id y) by (apply N2, in_app_iff; right; now left).
            assert (Ly : live h n y) by (eapply live_edge; eauto).
            assert (Ny : y <> id) by (intros ->; apply (AC id Lid), t_step; auto).
            assert (NEy : ~ In y E). { intros Q. apply in_split in Q as (l1 & l2 & Q). destruct NEid as [NE1 _]. apply NE1. rewrite Q. apply in_app_iff. left. eapply (Ho l1 y l2); eauto. }
            assert (NBy : ~ In y B') by (intros Q; apply (H7 y Q); now left).
            assert (Npy : ~ In y pref /\ ~ In y todo).
            { apply nodup_app_iff in N1 as (_ & Q1 & Q2). inversion Q1; subst. split; auto. intros Q. apply (Q2 y); auto. now left. }
            cbn [ofold].
            set (pm2 := upd pm' y (filter (fun z => negb (Nat.eqb z id)) (pm' y))).
            assert (PM2 : forall x z, live h n z -> (In x (pm2 z) <-> live h n x /\ edge h x z /\ ~ In x E /\ ~ (x = id /\ In z (pref ++ [y])))).
            { intros x z Lz. unfold pm2. rewrite in_app_iff. cbn. destruct (Nat.eq_dec z y) as [->|Nz].
              - rewrite upd_eq, filter_In, H5, Bool.negb_true_iff, Nat.eqb_neq by auto. intuition.
              - rewrite upd_neq, H5 by auto. intuition. }
            assert (A1 : (pref ++ [y]) ++ todo = pref ++ y :: todo) by (rewrite <- app_assoc; reflexivity).
            assert (RE : ts_release al tm id (pm', hp') y = match pm2 y with [] => hp2 <- heap_add al hp' (Z.of_nat (tm y)) (Z.of_nat y) ;; Some (pm2, hp2) | _ => Some (pm2, hp') end) by reflexivity.
            rewrite RE. clear RE.
            destruct (pm2 y) as [|p r] eqn:Q.
            + destruct (heap_add_ok al hp' (Z.of_nat (tm y)) (Z.of_nat y) AL H1 (int_min_le _)) as (hp2 & E2 & I2 & P3). rewrite E2. cbn [obind].
              apply (IHt (pref ++ [y]) pm2 hp2 (y :: B')).
              * now rewrite A1.
              * intros z. now rewrite A1.
              * exact I2.
              * eapply Permutation_trans; [exact P3|]. cbn. unfold ent at 1. rewrite <- (TM y) by (now apply DI). now apply perm_skip.
              * assert (P4 : Permutation (y :: E ++ [id] ++ B') (E ++ [id] ++ y :: B')).
                { rewrite !app_assoc. apply Permutation_middle. }
                eapply Permutation_NoDup; [exact P4|]. constructor; auto. rewrite !in_app_iff. cbn. intuition.
              * intros x [<-|Hx]; auto.
              * exact PM2.
              * intros z [<-|Hz]; [|now apply H6]. intros p Lp Ep. destruct (in_dec Nat.eq_dec p (E ++ [id])) as [|NP]; auto. exfalso.
                assert (X : In p (pm2 y)). { apply PM2; auto. split; auto. split; auto. split; [intros X; apply NP, in_app_iff; auto|]. intros [-> _]. apply NP, in_app_iff. right. now left. }
                rewrite Q in X. destruct X.
              * intros z [<-|Hz] Ht; [tauto|]. apply (H7 z Hz). now right.
              * intros z Lz NEz Nz Nt Qz. destruct (Nat.eq_dec z y) as [->|Nzy]; [now left|]. right. apply H8; auto; [intros [|]; auto|].
                unfold pm2 in Qz. now rewrite upd_neq in Qz.
            + apply (IHt (pref ++ [y]) pm2 hp' B'); auto.
              * now rewrite A1.
              * intros z. now rewrite A1.
              * intros z Hz Ht. apply (H7 z Hz). now right.
              * intros z Lz NEz Nz Nt Qz. destruct (Nat.eq_dec z y) as [->|Nzy]; [congruence|]. apply H8; auto; [intros [|]; auto|].
                unfold pm2 in Qz. now rewrite upd_neq in Qz. }
        destruct (REL (sm id) [] pm hp1 (B1 ++ B2)) as (pm2 & hp2 & B3 & E2 & EM2); auto.
        { cbn. apply asc_nodup, S1. }
        { intros y. cbn. rewrite S2. split; [tauto|]. intros Q. split; auto. now apply DI. }
        { intros x Hx. apply Hl, in_app_iff. right. apply Bin. auto. }
        { intros x y Ly. rewrite Hp by auto. cbn. intuition. }
        { intros y Hy p Lp Ep. apply in_app_iff. left. apply (HB y); auto. apply Bin; auto. }
        { intros y Hy Hs. apply S2 in Hs as [_ Hs]. destruct NEid as [NE1 _]. apply NE1. apply (HB y); auto. apply Bin; auto. }
        { intros y Ly NE Ni Ns Q. assert (X : In y (b :: B0)) by (apply Ha; auto). apply Bin in X as [|]; [contradiction|auto]. }
        rewrite E2. cbn [obind]. destruct (IH (E ++ [id]) B3 pm2 hp2 EM2) as (L & EL & NL & IL & OL).
        { rewrite app_length. cbn. lia. }
        rewrite EL. cbn [obind]. exists (id :: L). split; auto. rewrite <- app_assoc in NL, OL. split; auto. split; auto.
        intros x. rewrite <- IL, <- app_assoc. reflexivity.
    Qed.
  End Emit.

  (** The result lists the tasks of the live steps in an order that respects the edges. *)
  Theorem topSort_ok : exists L, topSort al h n = Some (map tsk L) /\ NoDup L /\ (forall x, In x L <-> live h n x) /\ orderly L.
  Proof.
    unfold topSort. fold firsts. destruct (heap_new_ok al 50 ltac:(lia) (AL 50)) as (hp0 & E0 & I0 & B0). rewrite E0. cbn [obind].
    assert (INIT : forall l hp B, HInv hp -> Permutation (elems hp) (map ent B) -> (forall x, In x l -> x < length h) ->
      exists hp', ofold (fun hp x => tk <- task_of h x ;; heap_add al hp (Z.of_nat tk) (Z.of_nat x)) l hp = Some hp' /\ HInv hp' /\ Permutation (elems hp') (map ent (l ++ B))).
    { induction l as [|x l IH]; intros hp B HI HP HB; cbn; [eauto|]. destruct (get_some h x) as (ps & G); [apply HB; now left|].
      unfold task_of. rewrite G. cbn [obind]. destruct (heap_add_ok al hp (Z.of_nat (ps_task ps)) (Z.of_nat x) AL HI (int_min_le _)) as (hp1 & E1 & I1 & P1).
      rewrite E1. destruct (IH hp1 (x :: B)) as (hp2 & E2 & I2 & P2); auto.
      - eapply Permutation_trans; [exact P1|]. cbn. unfold ent at 1. unfold tsk. rewrite G. now apply perm_skip.
      - intros y Hy. apply HB. now right.
      - exists hp2. split; auto. split; auto. eapply Permutation_trans; [exact P2|]. change (ent x :: map ent (l ++ B)) with (map ent (x :: l ++ B)).
        apply Permutation_map. symmetry. apply Permutation_middle. }
    destruct (INIT firsts hp0 [] I0) as (hp & E1 & I1 & P1).
    { rewrite B0. constructor. }
    { intros x Hx. apply HL. now apply firsts_in. }
    rewrite E1. cbn [obind]. rewrite app_nil_r in P1.
    destruct (collect_ok (ts_fuel h n) firsts [] (fun _ => []) (fun _ => []) (fun _ => 0)) as (D & sm & pm & tm & EC & DN & DI & M1 & M2 & M3 & M4 & M5).
    - unfold ts_fuel. fold firsts. apply Nat.add_le_mono_l. unfold rest. cbn. apply Nat.eq_le_incl. f_equal.
      apply (map_seq_get (fun o => length (match o with Some ps => ps_succ ps | None => [] end)) h).
    - constructor.
    - intros x [Hx|[]]. apply live_head. now apply firsts_in.
    - intros x Hx. left. now apply firsts_in.
    - intros x y [].
    - split; [intros; constructor|]. split; [cbn; tauto|]. split; [intros; constructor|]. split; [cbn; tauto|]. intros x [].
    - rewrite EC. cbn [obind].
      destruct (emit_ok D sm tm DI M1 M2 M5 (length h) [] firsts pm hp) as (L & EL & NL & IL & OL).
      + split; auto.
        * apply firsts_nodup.
        * intros x Hx. apply live_head. now apply firsts_in.
        * intros L1 x L2 Q. destruct L1; discriminate.
        * intros x y Ly. rewrite M4, DI. cbn. tauto.
        * intros y Hy p Lp Ep. exfalso. apply (HM p y Lp); [now apply firsts_in|now apply t_step].
        * intros y (r & Hr & Hp) _ Q. apply rtc_cases in Hp as [->|Hp]; [now apply firsts_in|]. exfalso. apply tc_last in Hp as (z & Hz & Ez).
          assert (X : In z (pm y)) by (apply M4; split; auto; apply DI; exists r; auto). rewrite Q in X. destruct X.
      + assert (Q : length D <= length (seq 0 (length h))).
        { apply NoDup_incl_length; auto. intros x Hx. apply in_seq. apply DI in Hx. apply live_bound in Hx. lia. }
        rewrite seq_length in Q. cbn. lia.
      + exists L. auto.
  Qed.
End Top.
