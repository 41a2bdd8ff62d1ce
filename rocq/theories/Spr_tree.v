(** Numbered decomposition trees and the lines printed for them. *)
From Coq Require Import List Arith Lia Permutation Relations.
Import ListNotations.
From Verif Require Import Base Htn_problem Htn_spec To_spec Tree_spec Spr_spec.

(** An action, or an abstract task with its method; [kids] has the subtasks with their positions in the method. *)
Inductive wtree := WA (i a : nat) | WN (i t m : nat) (kids : list (nat * wtree)).
Section Ind.
  Variable Q : wtree -> Prop.
  Hypothesis HA : forall i a, Q (WA i a).
  Hypothesis HN : forall i t m kids, Forall (fun x => Q (snd x)) kids -> Q (WN i t m kids).
  Fixpoint wtree_ind' (w : wtree) : Q w :=
    match w with
    | WA i a => HA i a
    | WN i t m kids => HN i t m kids ((fix go (l : list (nat * wtree)) : Forall (fun x => Q (snd x)) l := match l with [] => Forall_nil _ | x :: r => Forall_cons _ (wtree_ind' (snd x)) (go r) end) kids)
    end.
End Ind.
Definition wid (w : wtree) : nat := match w with WA i _ => i | WN i _ _ _ => i end.
Definition wtask (w : wtree) : nat := match w with WA _ a => a | WN _ t _ _ => t end.
Definition wkids (w : wtree) : list (nat * wtree) := match w with WA _ _ => [] | WN _ _ _ k => k end.
Fixpoint subs (w : wtree) : list wtree := w :: match w with WA _ _ => [] | WN _ _ _ kids => flat_map (fun x => subs (snd x)) kids end.
Lemma subs_eq w : subs w = w :: flat_map (fun x => subs (snd x)) (wkids w).
Proof. destruct w; reflexivity. Qed.

(** The kids in the order of the method. *)
Definition skids (kids : list (nat * wtree)) : list nat := flat_map (fun j => map (fun x => wid (snd x)) (filter (fun x => fst x =? j) kids)) (seq 0 (length kids)).
Definition wrow (f : list (nat * wtree) -> list nat) (w : wtree) : list row :=
  match w with WA _ _ => [] | WN i t m kids => [{| rw_id := i; rw_task := t; rw_meth := m; rw_kids := f kids |}] end.
Definition wleaf (w : wtree) : list (nat * nat) := match w with WA i a => [(i, a)] | WN _ _ _ _ => [] end.
Definition rows_by f (w : wtree) : list row := flat_map (wrow f) (subs w).
Definition leaves (w : wtree) : list (nat * nat) := flat_map wleaf (subs w).
(** as printed *)
Definition pkids (kids : list (nat * wtree)) : list nat := map (fun x => wid (snd x)) kids.

Definition node_good (P : problem) (w : wtree) : Prop :=
  match w with
  | WA _ a => primitive P a
  | WN _ t m kids => exists me, nth_error (p_methods P) m = Some me /\ m_task me = t /\ Permutation (map fst kids) (seq 0 (length (m_subs me))) /\
      forall j x, In (j, x) kids -> nth_error (m_subs me) j = Some (wtask x)
  end.
Definition wok (P : problem) (w : wtree) : Prop := forall u, In u (subs w) -> node_good P u.

Lemma flat_inj {A B} (f : A -> list B) l x y z : NoDup (flat_map f l) -> In x l -> In y l -> In z (f x) -> In z (f y) -> x = y.
Proof.
  induction l as [|a l IH]; cbn [flat_map]; intros ND Hx Hy Zx Zy; [destruct Hx|]. apply nodup_app_iff in ND as (N1 & N2 & N3). destruct Hx as [->|Hx], Hy as [->|Hy]; auto.
  - exfalso. apply (N3 z Zx). apply in_flat_map. eauto.
  - exfalso. apply (N3 z Zy). apply in_flat_map. eauto.
Qed.
Lemma nodup_inj {A B} (f : A -> B) l x y : NoDup (map f l) -> In x l -> In y l -> f x = f y -> x = y.
Proof.
  induction l as [|a l IH]; cbn [map]; intros ND Hx Hy E; [destruct Hx|]. inversion ND as [|? ? N1 N2]; subst. destruct Hx as [->|Hx], Hy as [->|Hy]; auto.
  - exfalso. apply N1. rewrite E. now apply in_map.
  - exfalso. apply N1. rewrite <- E. now apply in_map.
Qed.
Lemma map_flat {A B C} (g : B -> C) (f : A -> list B) l : map g (flat_map f l) = flat_map (fun x => map g (f x)) l.
Proof. induction l as [|x l IH]; cbn [flat_map]; auto. now rewrite map_app, IH. Qed.

Lemma in_subs u w : In u (subs w) <-> u = w \/ exists x, In x (wkids w) /\ In u (subs (snd x)).
Proof. rewrite subs_eq. cbn [In]. rewrite in_flat_map. split; intros [H|H]; auto. Qed.
Lemma subs_self w : In w (subs w).
Proof. apply in_subs. now left. Qed.
Lemma subs_trans w : forall u x, In u (subs w) -> In x (subs u) -> In x (subs w).
Proof.
  induction w as [i a|i t m kids IH] using wtree_ind'; intros u x Hu Hx.
  - apply in_subs in Hu as [->|(y & [] & _)]. exact Hx.
  - apply in_subs in Hu as [->|(y & Hy & Hu)]; auto. cbn [wkids] in Hy. apply in_subs. right. exists y. split; auto. rewrite Forall_forall in IH. exact (IH y Hy u x Hu Hx).
Qed.
Lemma kid_sub u j x : In (j, x) (wkids u) -> In x (subs u).
Proof. intros H. apply in_subs. right. exists (j, x). split; auto. apply subs_self. Qed.

(** Splitting the list of a tree at one of its nodes. *)
Lemma subs_split w : forall u, In u (subs w) -> exists l1 l2, subs w = l1 ++ subs u ++ l2 /\ (u <> w -> l1 <> []).
Proof.
  induction w as [i a|i t m kids IH] using wtree_ind'; intros u Hu.
  - apply in_subs in Hu as [->|(y & [] & _)]. exists [], []. rewrite app_nil_r. split; [reflexivity|congruence].
  - apply in_subs in Hu as [->|(y & Hy & Hu)]; [exists [], []; rewrite app_nil_r; split; [reflexivity|congruence]|]. cbn [wkids] in Hy. rewrite Forall_forall in IH. destruct (IH y Hy u Hu) as (l1 & l2 & E & _).
    apply in_split in Hy as (k1 & k2 & ->). exists (WN i t m (k1 ++ y :: k2) :: flat_map (fun x => subs (snd x)) k1 ++ l1), (l2 ++ flat_map (fun x => subs (snd x)) k2). split; [|discriminate].
    rewrite subs_eq. cbn [wkids app]. f_equal. rewrite flat_map_app. cbn [flat_map]. rewrite E. now rewrite <- !app_assoc.
Qed.

Section Tree.
  Variables (P : problem) (w : wtree).
  Hypothesis ND : NoDup (map wid (subs w)).
  Hypothesis OK : wok P w.
  Let rows := rows_by skids w.

  Lemma same u u' : In u (subs w) -> In u' (subs w) -> wid u = wid u' -> u = u'.
  Proof. intros H H' E. exact (nodup_inj wid (subs w) u u' ND H H' E). Qed.
  Lemma nd_subs u : In u (subs w) -> NoDup (map wid (subs u)).
  Proof. intros H. destruct (subs_split w u H) as (l1 & l2 & E & _). assert (N := ND). rewrite E, !map_app in N. apply nodup_app_iff in N as (_ & N & _). apply nodup_app_iff in N. tauto. Qed.

  Lemma good_kids i t m kids : In (WN i t m kids) (subs w) -> NoDup (map fst kids) /\ forall j, In j (map fst kids) <-> j < length kids.
  Proof.
    intros H. destruct (OK _ H) as (me & _ & _ & PM & _). assert (L : length kids = length (m_subs me)) by (rewrite <- (map_length fst), (Permutation_length PM), seq_length; reflexivity). split.
    - eapply Permutation_NoDup; [symmetry; exact PM|apply seq_NoDup].
    - intros j. rewrite L. split; intros Hj; [apply (Permutation_in j PM), in_seq in Hj; lia|apply (Permutation_in j (Permutation_sym PM)), in_seq; lia].
  Qed.
  Lemma filter_one kids j : NoDup (map fst kids) -> In j (map fst kids) -> exists u, filter (fun x : nat * wtree => fst x =? j) kids = [(j, u)] /\ In (j, u) kids.
  Proof.
    induction kids as [|[k u] kids IH]; cbn [map fst filter]; intros N H; [destruct H|]. inversion N as [|? ? N1 N2]; subst. destruct (Nat.eqb_spec k j) as [->|NE].
    - exists u. split; [|now left]. f_equal. clear IH H N N2. induction kids as [|[k' u'] kids IH]; auto. cbn [filter fst]. destruct (Nat.eqb_spec k' j) as [->|NE]; [exfalso; apply N1; now left|]. apply IH. intros H. apply N1. now right.
    - destruct H as [H|H]; [contradiction|]. destruct (IH N2 H) as (u' & E & I). exists u'. split; auto. now right.
  Qed.
  Lemma flat_nth {A} (F : nat -> list A) n : forall b j, (forall k, b <= k < b + n -> exists u, F k = [u]) -> j < n -> nth_error (flat_map F (seq b n)) j = nth_error (F (b + j)) 0.
  Proof.
    induction n as [|n IH]; intros b j H L; [lia|]. cbn [seq flat_map]. destruct (H b ltac:(lia)) as (u & E). rewrite E. cbn [app]. destruct j as [|j]; [now rewrite Nat.add_0_r, E|]. cbn [nth_error]. rewrite IH; [now replace (Datatypes.S b + j) with (b + Datatypes.S j) by lia| |lia]. intros k Lk. apply H. lia.
  Qed.
  Lemma flat_len {A} (F : nat -> list A) n : forall b, (forall k, b <= k < b + n -> exists u, F k = [u]) -> length (flat_map F (seq b n)) = n.
  Proof. induction n as [|n IH]; intros b H; auto. cbn [seq flat_map]. destruct (H b ltac:(lia)) as (u & E). rewrite E, app_length, IH; [reflexivity|]. intros k Lk. apply H. lia. Qed.
  Lemma skids_single kids : NoDup (map fst kids) -> (forall j, In j (map fst kids) <-> j < length kids) -> forall k, 0 <= k < 0 + length kids -> exists u, map (fun x : nat * wtree => wid (snd x)) (filter (fun x => fst x =? k) kids) = [u].
  Proof. intros N I k L. destruct (filter_one kids k N) as (u & E & _); [apply I; lia|]. rewrite E. exists (wid u). reflexivity. Qed.
  Lemma skids_nth kids j c : NoDup (map fst kids) -> (forall j, In j (map fst kids) <-> j < length kids) -> (nth_error (skids kids) j = Some c <-> exists u, In (j, u) kids /\ wid u = c).
  Proof.
    intros N I. unfold skids. split.
    - intros E. assert (L : j < length kids) by (apply get_lt in E; rewrite flat_len in E by (apply skids_single; auto); exact E). rewrite flat_nth in E by (auto using skids_single). cbn [Nat.add] in E.
      destruct (filter_one kids j N) as (u & Eu & Iu); [now apply I|]. rewrite Eu in E. injection E as <-. eauto.
    - intros (u & Iu & <-). assert (Ij : In j (map fst kids)) by (apply in_map_iff; exists (j, u); auto). rewrite flat_nth; [|apply skids_single; auto|now apply I]. cbn [Nat.add]. destruct (filter_one kids j N Ij) as (u' & E & I'). rewrite E. cbn [map nth_error snd].
      assert (X := nodup_inj fst kids _ _ N Iu I' eq_refl). injection X as ->. reflexivity.
  Qed.
  Lemma skids_len kids : NoDup (map fst kids) -> (forall j, In j (map fst kids) <-> j < length kids) -> length (skids kids) = length kids.
  Proof. intros N I. apply flat_len. apply skids_single; auto. Qed.

  Lemma row_in r : In r rows <-> exists i t m kids, In (WN i t m kids) (subs w) /\ r = {| rw_id := i; rw_task := t; rw_meth := m; rw_kids := skids kids |}.
  Proof.
    unfold rows, rows_by. rewrite in_flat_map. split.
    - intros (u & Hu & Hr). destruct u as [i a|i t m kids]; [destruct Hr|]. destruct Hr as [<-|[]]. eauto 7.
    - intros (i & t & m & kids & Hu & ->). exists (WN i t m kids). split; auto. now left.
  Qed.
  Lemma child_in i c j : child rows i c j <-> exists p u, In p (subs w) /\ wid p = i /\ In (j, u) (wkids p) /\ wid u = c.
  Proof.
    split.
    - intros (r & Hr & Ei & Ec). apply row_in in Hr as (i' & t & m & kids & Hu & ->). cbn [rw_id rw_kids] in *. subst i'. destruct (good_kids _ _ _ _ Hu) as [K1 K2]. apply (skids_nth kids j c K1 K2) in Ec as (u & Iu & Eu). exists (WN i t m kids), u. auto.
    - intros (p & u & Hp & Ei & Iu & Ec). destruct p as [i' a|i' t m kids]; [destruct Iu|]. cbn [wid wkids] in *. subst i'. eexists. split; [apply row_in; eauto 7|]. split; [reflexivity|]. cbn [rw_kids]. destruct (good_kids _ _ _ _ Hp) as [K1 K2]. apply (skids_nth kids j c K1 K2). eauto.
  Qed.
  Lemma kid_in p j u : In p (subs w) -> In (j, u) (wkids p) -> In u (subs w).
  Proof. intros H I. apply (subs_trans w p u H). now apply (kid_sub p j). Qed.

  Lemma below_down p : In p (subs w) -> forall u, In u (subs p) -> below rows (wid p) (wid u).
  Proof.
    induction p as [i a|i t m kids IH] using wtree_ind'; intros Hp u Hu; apply in_subs in Hu as [->|([j x] & Hx & Hu)]; try apply rt_refl; [destruct Hx|]. cbn [wkids snd] in *.
    eapply rt_trans; [apply rt_step; exists j; apply child_in; exists (WN i t m kids), x; cbn [wkids]; split; auto|]. rewrite Forall_forall in IH. apply (IH (j, x) Hx); auto. exact (kid_in (WN i t m kids) j x Hp Hx).
  Qed.
  Lemma below_up i c : below rows i c -> forall p, In p (subs w) -> wid p = i -> exists u, In u (subs p) /\ wid u = c.
  Proof.
    intros B. apply clos_rt_rt1n in B. induction B as [i|i k c (j & CH) B IH]; intros p Hp E; [exists p; split; [apply subs_self|auto]|].
    apply child_in in CH as (p' & x & Hp' & E' & Ix & Ex). assert (p' = p) by (apply same; congruence). subst p'. destruct (IH x (kid_in p j x Hp Ix) Ex) as (u & Hu & Eu). exists u. split; auto. apply (subs_trans p x u); auto. now apply (kid_sub p j).
  Qed.

  Lemma kid_not_self u j x : In u (subs w) -> In (j, x) (wkids u) -> ~ In u (subs x).
  Proof.
    intros Hu Ix Hx. assert (N := nd_subs u Hu). rewrite subs_eq in N. cbn [map] in N. inversion N as [|? ? N1 _]; subst. apply N1, in_map, in_flat_map. exists (j, x). auto.
  Qed.
  Lemma parent_unique u : forall p p' j j', In p (subs w) -> In p' (subs w) -> In (j, u) (wkids p) -> In (j', u) (wkids p') -> p = p' /\ j = j'.
  Proof.
    enough (G : forall z, In z (subs w) -> forall p p' j j', In p (subs z) -> In p' (subs z) -> In (j, u) (wkids p) -> In (j', u) (wkids p') -> p = p' /\ j = j') by (intros p p' j j' H H'; apply (G w (subs_self w)); auto).
    assert (KU : forall z, In z (subs w) -> forall x x' y, In x (wkids z) -> In x' (wkids z) -> In y (subs (snd x)) -> In y (subs (snd x')) -> x = x').
    { intros z Hz x x' y Hx Hx' Hy Hy'. assert (N := nd_subs z Hz). rewrite subs_eq in N. cbn [map] in N. inversion N as [|? ? _ N2]; subst. rewrite map_flat in N2. refine (flat_inj _ (wkids z) x x' (wid y) N2 Hx Hx' _ _); now apply in_map. }
    induction z as [i a|i t m kids IH] using wtree_ind'; intros Hz p p' j j' Hp Hp' Hu Hu'; apply in_subs in Hp as [->|(x & Hx & Hp)]; apply in_subs in Hp' as [->|(x' & Hx' & Hp')]; try contradiction; cbn [wkids] in *.
    - split; auto. assert (E := KU _ Hz (j, u) (j', u) u Hu Hu' (subs_self u) (subs_self u)). congruence.
    - exfalso. assert (E := KU _ Hz (j, u) x' u Hu Hx' (subs_self u) (subs_trans _ p' u Hp' (kid_sub p' j' u Hu'))). subst x'. cbn [snd] in Hp'. apply (kid_not_self p' j' u); auto. apply (subs_trans w (WN i t m kids)); auto. apply in_subs. right. exists (j, u). auto.
    - exfalso. assert (E := KU _ Hz (j', u) x u Hu' Hx (subs_self u) (subs_trans _ p u Hp (kid_sub p j u Hu))). subst x. cbn [snd] in Hp. apply (kid_not_self p j u); auto. apply (subs_trans w (WN i t m kids)); auto. apply in_subs. right. exists (j', u). auto.
    - assert (E := KU _ Hz x x' u Hx Hx' (subs_trans _ p u Hp (kid_sub p j u Hu)) (subs_trans _ p' u Hp' (kid_sub p' j' u Hu'))). subst x'. rewrite Forall_forall in IH. apply (IH x Hx); auto. apply (subs_trans w (WN i t m kids)); auto. apply in_subs. right. exists x. split; auto. apply subs_self.
  Qed.

  Lemma leaf_in l i a : In (i, a) (flat_map wleaf l) <-> In (WA i a) l.
  Proof. rewrite in_flat_map. split; [intros (u & Hu & H); destruct u as [i' a'|]; [destruct H as [[= -> ->]|[]]; auto|destruct H]|intros H; exists (WA i a); split; auto; now left]. Qed.
  Lemma ids_perm acts : Permutation acts (leaves w) -> Permutation (ids rows acts) (map wid (subs w)).
  Proof.
    intros PM. unfold ids. rewrite (Permutation_map fst PM). unfold rows, rows_by, leaves. clear. induction (subs w) as [|u l IH]; [constructor|]. cbn [flat_map map]. rewrite !map_app. destruct u as [i a|i t m kids]; cbn [wrow wleaf map app wid].
    - rewrite <- IH. symmetry. apply Permutation_middle.
    - now constructor.
  Qed.

  (** The rows with sorted subtasks and the actions in any order that respects the methods. *)
  Lemma wtree_ok acts i t m kids : w = WN i t m kids -> t = p_init P -> Permutation acts (leaves w) ->
    (forall q1 q2 a b, q1 < q2 -> nth_error (map fst acts) q1 = Some a -> nth_error (map fst acts) q2 = Some b -> ~ must_precede P rows b a) ->
    tree_ok P i rows acts.
  Proof.
    intros EW ET PM OR. assert (IP := ids_perm acts PM). assert (HW : In (WN i t m kids) (subs w)) by (rewrite <- EW; apply subs_self). assert (EI : wid w = i) by (rewrite EW; reflexivity).
    assert (IN : forall k, In k (ids rows acts) -> exists u, In u (subs w) /\ wid u = k). { intros k Hk. apply (Permutation_in k IP), in_map_iff in Hk as (u & E & Hu). eauto. }
    assert (AL : forall k a, In (k, a) acts <-> In (WA k a) (subs w)). { intros k a. rewrite <- leaf_in. split; intros H; [apply (Permutation_in _ PM H)|apply (Permutation_in _ (Permutation_sym PM) H)]. }
    constructor.
    - eapply Permutation_NoDup; [symmetry; exact IP|exact ND].
    - intros k a H. apply AL in H. exact (OK _ H).
    - eexists. split; [apply row_in; exists i, t, m, kids; split; [exact HW|reflexivity]|]. auto.
    - intros r Hr. apply row_in in Hr as (k & t' & m' & kids' & Hu & ->). cbn [rw_meth rw_task rw_kids]. destruct (OK _ Hu) as (me & M1 & M2 & M3 & M4). destruct (good_kids _ _ _ _ Hu) as [K1 K2]. exists me. split; auto. split; auto. split.
      + rewrite skids_len by auto. rewrite <- (map_length fst), (Permutation_length M3), seq_length. reflexivity.
      + intros j c Hc. apply (skids_nth kids' j c K1 K2) in Hc as (u & Iu & <-). exists (wtask u). split; auto. assert (Hu' := kid_in (WN k t' m' kids') j u Hu Iu). destruct u as [k' a'|k' t'' m'' kids'']; [left; now apply AL|].
        right. eexists. split; [apply row_in; exists k', t'', m'', kids''; split; [exact Hu'|reflexivity]|]. auto.
    - intros k Hk NE. destruct (IN k Hk) as (u & Hu & <-). clear -Hu NE EI HW EW ND OK.
      enough (G : forall z, In z (subs w) -> In u (subs z) -> u <> z -> exists p j, child rows p (wid u) j). { apply (G w); auto using subs_self. intros ->. congruence. }
      induction z as [k a|k t' m' kids' IH] using wtree_ind'; intros Hz Hu' N'; apply in_subs in Hu' as [->|([j x] & Hx & Hu')]; try congruence; [destruct Hx|]. cbn [wkids snd] in *. destruct (Nat.eq_dec (wid u) (wid x)) as [E|E].
      + exists k, j. apply child_in. exists (WN k t' m' kids'), x. cbn [wkids wid]. auto.
      + rewrite Forall_forall in IH. apply (IH (j, x) Hx); auto; [exact (kid_in (WN k t' m' kids') j x Hz Hx)|]. cbn. congruence.
    - intros c p j p' j' C1 C2. apply child_in in C1 as (y & u & Hy & <- & Iu & Eu). apply child_in in C2 as (y' & u' & Hy' & <- & Iu' & Eu'). assert (u = u') by (apply same; [exact (kid_in y j u Hy Iu)|exact (kid_in y' j' u' Hy' Iu')|congruence]). subst u'.
      destruct (parent_unique u y y' j j' Hy Hy' Iu Iu') as [-> ->]. auto.
    - intros p j C. apply child_in in C as (y & u & Hy & _ & Iu & Eu). assert (u = w) by (apply same; [eapply kid_in; eauto|apply subs_self|congruence]). subst u. exact (kid_not_self y j w Hy Iu Hy).
    - intros k Hk. destruct (IN k Hk) as (u & Hu & <-). rewrite <- EI. apply below_down; auto. apply subs_self.
    - exact OR.
  Qed.
  Lemma skids_perm kids : NoDup (map fst kids) -> (forall j, In j (map fst kids) <-> j < length kids) -> Permutation (pkids kids) (skids kids).
  Proof.
    intros N I. unfold pkids, skids. assert (E : flat_map (fun j => map (fun x : nat * wtree => wid (snd x)) (filter (fun x => fst x =? j) kids)) (seq 0 (length kids)) = map (fun x => wid (snd x)) (flat_map (fun j => filter (fun x => fst x =? j) kids) (seq 0 (length kids)))) by now rewrite map_flat.
    rewrite E. apply Permutation_map, NoDup_Permutation.
    - exact (NoDup_map_inv _ _ N).
    - assert (NK := NoDup_map_inv _ _ N). generalize (seq_NoDup (length kids) 0). generalize (seq 0 (length kids)) as l. induction l as [|j l IH]; intros NL; [constructor|]. inversion NL as [|? ? N1 N2]; subst. cbn [flat_map]. apply nodup_app_iff. split; [now apply NoDup_filter|]. split; auto.
      intros x Hx Hx'. apply filter_In in Hx as [_ Hx]. apply in_flat_map in Hx' as (k & Hk & Hx'). apply filter_In in Hx' as [_ Hx']. apply Nat.eqb_eq in Hx, Hx'. congruence.
    - intros x. rewrite in_flat_map. split.
      + intros Hx. exists (fst x). split; [apply in_seq; split; [lia|]; apply I; now apply in_map|]. apply filter_In. split; auto. apply Nat.eqb_refl.
      + intros (j & _ & Hx). now apply filter_In in Hx.
  Qed.
  Lemma printed_rows : Forall2 rearranged (rows_by pkids w) rows.
  Proof.
    unfold rows, rows_by. assert (G : forall l, incl l (subs w) -> Forall2 rearranged (flat_map (wrow pkids) l) (flat_map (wrow skids) l)).
    { induction l as [|u l IH]; intros IL; [constructor|]. cbn [flat_map]. assert (Hu : In u (subs w)) by (apply IL; now left). apply Forall2_app; [|apply IH; intros x Hx; apply IL; now right]. destruct u as [i a|i t m kids]; [constructor|]. destruct (good_kids _ _ _ _ Hu) as [K1 K2].
      repeat constructor. now apply skids_perm. }
    apply G, incl_refl.
  Qed.

  (** If the subtasks are printed in execution order then so are the actions. *)
  Hypothesis TOT : forall i t m kids, In (WN i t m kids) (subs w) -> exists me, nth_error (p_methods P) m = Some me /\ total_seq me (map fst kids).
  Hypothesis AC : forall me j, In me (p_methods P) -> ~ m_lt me j j.
  Lemma leaves_order q1 q2 a b : q1 < q2 -> nth_error (map fst (leaves w)) q1 = Some a -> nth_error (map fst (leaves w)) q2 = Some b -> ~ must_precede P rows b a.
  Proof.
    intros L E1 E2 (r & me & j & k & cb & ca & Hr & Em & LT & Ej & Ek & Bb & Ba). apply row_in in Hr as (i & t & m & kids & Hu & ->). cbn [rw_meth rw_kids] in *. destruct (good_kids _ _ _ _ Hu) as [K1 K2]. apply (skids_nth kids j cb K1 K2) in Ej as (x & Ix & <-). apply (skids_nth kids k ca K1 K2) in Ek as (y & Iy & <-).
    assert (LV : forall z c q, In z (subs w) -> below rows (wid z) c -> nth_error (map fst (leaves w)) q = Some c -> In c (map fst (leaves z))).
    { intros z c q Hz B E. destruct (below_up _ _ B z Hz eq_refl) as (u & Hu' & <-). apply nth_error_In, in_map_iff in E as ([c' a'] & E & I). cbn [fst] in E. subst c'. unfold leaves in I. apply leaf_in in I. assert (WA (wid u) a' = u) by (apply same; auto; apply (subs_trans w z); auto).
      apply in_map_iff. exists (wid u, a'). split; auto. unfold leaves. apply leaf_in. rewrite H. exact Hu'. }
    assert (Hb := LV x b q2 (kid_in _ j x Hu Ix) Bb E2). assert (Ha := LV y a q1 (kid_in _ k y Hu Iy) Ba E1).
    destruct (TOT _ _ _ _ Hu) as (me' & Em' & T1 & T2 & T3). assert (me' = me) by congruence. subst me'.
    assert (SP : exists k1 k2 k3, kids = k1 ++ (j, x) :: k2 ++ (k, y) :: k3).
    { apply in_split in Ix as (k1 & k2 & ->). apply in_app_or in Iy as [Iy|[Iy|Iy]].
      - exfalso. apply in_split in Iy as (l1 & l2 & ->). rewrite <- app_assoc in *. cbn [app] in *. rewrite map_app in T3. cbn [map fst] in T3. apply (AC me j); [now apply nth_error_In in Em|]. eapply t_trans; [exact LT|]. apply (T3 (map fst l1) k (map fst (l2 ++ (j, x) :: k2)) j eq_refl). rewrite map_app. apply in_or_app. right. now left.
      - injection Iy as <- _. exfalso. apply (AC me j); auto. now apply nth_error_In in Em.
      - apply in_split in Iy as (l1 & l2 & ->). exists k1, l1, l2. reflexivity. }
    destruct SP as (k1 & k2 & k3 & ->). destruct (subs_split w _ Hu) as (l1 & l2 & ES & _). rewrite (subs_eq (WN i t m _)) in ES. cbn [wkids] in ES.
    assert (EL : exists s1 s2 s3, map fst (leaves w) = s1 ++ map fst (leaves x) ++ s2 ++ map fst (leaves y) ++ s3).
    { assert (X : forall l1 l2, flat_map wleaf (l1 ++ l2) = flat_map wleaf l1 ++ flat_map wleaf l2) by (intros; apply flat_map_app). assert (Y : forall l1 l2, flat_map (fun x : nat * wtree => subs (snd x)) (l1 ++ l2) = flat_map (fun x => subs (snd x)) l1 ++ flat_map (fun x => subs (snd x)) l2) by (intros; apply flat_map_app).
      assert (Z : forall h u l, flat_map (fun x : nat * wtree => subs (snd x)) ((h, u) :: l) = subs u ++ flat_map (fun x => subs (snd x)) l) by reflexivity. assert (W : forall u l, flat_map wleaf (u :: l) = wleaf u ++ flat_map wleaf l) by reflexivity.
      exists (map fst (flat_map wleaf l1 ++ flat_map wleaf (flat_map (fun x => subs (snd x)) k1))), (map fst (flat_map wleaf (flat_map (fun x => subs (snd x)) k2))), (map fst (flat_map wleaf (flat_map (fun x => subs (snd x)) k3) ++ flat_map wleaf l2)).
      unfold leaves at 1. rewrite ES, X, X, W. change (wleaf (WN i t m (k1 ++ (j, x) :: k2 ++ (k, y) :: k3))) with (@nil (nat * nat)). cbn [app]. rewrite Y, X, Z, X, Y, X, Z, X. fold (leaves x). fold (leaves y). rewrite <- !app_assoc. rewrite !map_app. rewrite <- !app_assoc. reflexivity. }
    destruct EL as (s1 & s2 & s3 & EL).
    assert (NL : NoDup (map fst (leaves w))). { assert (X := Permutation_NoDup (Permutation_sym (ids_perm _ (Permutation_refl _))) ND). unfold ids in X. apply nodup_app_iff in X. tauto. }
    apply In_nth_error in Hb as (qb & Hb). apply In_nth_error in Ha as (qa & Ha).
    assert (Lb := get_lt _ _ _ Hb). assert (La := get_lt _ _ _ Ha).
    assert (PB : nth_error (map fst (leaves w)) (length s1 + qb) = Some b). { rewrite EL, nth_error_app2 by lia. replace (length s1 + qb - length s1) with qb by lia. rewrite nth_error_app1; auto. }
    assert (PA : nth_error (map fst (leaves w)) (length s1 + length (map fst (leaves x)) + length s2 + qa) = Some a).
    { rewrite EL, nth_error_app2 by lia. rewrite nth_error_app2 by lia. rewrite nth_error_app2 by lia. rewrite nth_error_app1 by lia. rewrite <- Ha. f_equal. lia. }
    assert (q2 = length s1 + qb). { apply (proj1 (NoDup_nth_error _) NL); [exact (get_lt _ _ _ E2)|]. congruence. }
    assert (q1 = length s1 + length (map fst (leaves x)) + length s2 + qa). { apply (proj1 (NoDup_nth_error _) NL); [exact (get_lt _ _ _ E1)|]. congruence. }
    lia.
  Qed.
End Tree.
