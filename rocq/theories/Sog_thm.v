(** Placement of totally ordered methods (C46). *)
From Coq Require Import ZArith.
From Verif Require Import Base Htn_problem Sog_model Sog_spec Sog_proof.

(** C46: a sequence of at most a million tasks that is not longer than the target is placed on increasing, hence pairwise different positions; exactly these
    positions are entered for the subtasks and exactly these labels are added; no other placement needs fewer new labels. *)
Theorem sequence_placement_optimal labels sq mp asg :
  length sq <= length labels -> (Z.of_nat (length sq) <= 1000000)%Z ->
  length mp = length sq -> NoDup mp -> (forall i, In i mp -> i < length asg) ->
  exists pos labels' asg', addSequenceToSOG labels sq mp asg = Some (labels', asg') /\
    placement (length labels) sq pos /\
    length labels' = length labels /\ length asg' = length asg /\
    (forall j, j < length sq -> nth (nth j mp 0) asg' 0 = nth j pos 0) /\
    (forall v t, In t (nth v labels' []) <-> In t (nth v labels []) \/ exists j, j < length sq /\ nth j pos 0 = v /\ nth j sq 0 = t) /\
    (forall pos', placement (length labels) sq pos' -> new_labels labels sq pos <= new_labels labels sq pos').
Proof.
  intros LE SM LM ND RA. assert (ET : exists tab, dp_table sq labels = Some tab).
  { unfold dp_table. destruct (Nat.ltb_spec (length labels) (length sq)); [lia|eauto]. } destruct ET as (tab & ET).
  destruct (add_sequence_ok labels sq tab ET SM mp LM asg RA ND) as (pos & labels' & asg' & E & L1 & L2 & PL & PO & LB & OP). exists pos, labels', asg'. auto 8.
Qed.

(** A longer sequence makes the code write outside of the table. *)
Theorem sequence_too_long labels sq mp asg : length labels < length sq -> addSequenceToSOG labels sq mp asg = None.
Proof. intros L. unfold addSequenceToSOG, dp_table. destruct (Nat.ltb_spec (length labels) (length sq)); [reflexivity|lia]. Qed.

(** C46 for a whole node: after sorting by decreasing length, every method is placed on the vertices of the first one in its order. *)
Theorem node_placement P mto ms :
  (forall m, In m ms -> exists me o, get (p_methods P) m = Some me /\ get mto m = Some o /\ NoDup o /\ (forall j, In j o <-> j < length (m_subs me)) /\
      (Z.of_nat (length (m_subs me)) <= 1000000)%Z /\ forall m0 me0, hd_error ms = Some m0 -> get (p_methods P) m0 = Some me0 -> length (m_subs me) <= length (m_subs me0)) ->
  exists n asgs, to_sog P mto ms = Some (n, asgs) /\ length asgs = length ms /\
    forall i m asg me o, get ms i = Some m -> get asgs i = Some asg -> get (p_methods P) m = Some me -> get mto m = Some o ->
      length asg = length (m_subs me) /\ placement n o (map (fun j => nth j asg 0) o).
Proof.
  intros H. destruct (to_sog_ok P mto ms) as (n & asgs & E & F & _).
  { intros m Hm. destruct (H m Hm) as (me & o & Gm & Go & N & I & S & L). exists me, o. unfold perm_seq. auto 8. }
  exists n, asgs. split; auto. split; [symmetry; clear -F; induction F; cbn; auto|]. intros i m asg me o Gi Ga Gm Go. clear E H. revert i Gi Ga.
  induction F as [|x y l l' (me' & o' & Gm' & Go' & L & PL) F IH]; intros [|i] Gi Ga; cbn in Gi, Ga; try discriminate.
  - injection Gi as ->. injection Ga as ->. rewrite Gm in Gm'. rewrite Go in Go'. assert (me' = me) by congruence. assert (o' = o) by congruence. subst. auto.
  - eapply IH; eauto.
Qed.

Module Ex.
  (** Four vertices that carry some labels already; placing 7 8 9: vertex 1 has 7, vertex 3 has 9. *)
  Definition labs : list (list nat) := [[8]; [7; 1]; []; [9]].
  Example place : addSequenceToSOG labs [7; 8; 9] [2; 0; 1] [0; 0; 0] = Some ([[8]; [7; 1]; [8]; [9]], [2; 3; 1]).
  Proof. vm_compute. reflexivity. Qed.
  Example hyps : length [7; 8; 9] <= length labs /\ (Z.of_nat (length [7; 8; 9]) <= 1000000)%Z /\ NoDup [2; 0; 1].
  Proof. repeat split; try (cbn; lia). repeat constructor; cbn; lia. Qed.
End Ex.

Print Assumptions sequence_placement_optimal.
Print Assumptions sequence_too_long.
Print Assumptions node_placement.
