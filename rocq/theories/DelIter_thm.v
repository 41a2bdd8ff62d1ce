(** C26: iteration over a delIterIntSet does not enumerate its members. *)
From Verif Require Import Base Arr IntSet_model NoDel_proof.
Local Open Scope Z_scope.

Definition d_inserts (size : nat) (l : list Z) : option dset := ofold d_insert l (d_init size).

(** The shape of the node list after insertions: node 0 is both first and last for ever. *)
Record DInv (s : dset) (x0 : Z) : Prop := {
  di_first : dfirst s = Some 0%nat;
  di_node : exists p, get (dn s) 0 = Some (Some {| lf := true; ll := true; lv := x0; lp := p; ln := None |});
  di_pos : 0 < dcur s;
  di_last : exists k n, dlast s = Some k /\ get (dn s) k = Some (Some n) }.

Lemma d_insert_first size i : 0 <= i < Z.of_nat size ->
  exists s, d_insert (d_init size) i = Some s /\ DInv s i /\ length (db s) = size.
Proof.
  intros H. unfold d_insert. cbn [db d_init dcur dn].
  rewrite (zget_ok false) by (rewrite repeat_length; auto). cbn [obind].
  assert (E : nth (Z.to_nat i) (repeat false size) false = false) by apply nth_repeat. rewrite E.
  destruct (zset_ok false (repeat false size) i true) as (b & -> & L & _); [now rewrite repeat_length|]. cbn [obind Z.eqb].
  eexists. split; [reflexivity|]. split.
  - constructor; cbn [dfirst dn dcur dlast length app].
    + reflexivity.
    + exists None. reflexivity.
    + lia.
    + eexists _, _. split; reflexivity.
  - cbn. rewrite L. apply repeat_length.
Qed.

Lemma d_insert_more s x0 i : DInv s x0 -> 0 <= i < Z.of_nat (length (db s)) ->
  exists s', d_insert s i = Some s' /\ DInv s' x0 /\ length (db s') = length (db s).
Proof.
  intros [F (p & N) P (k & n & EL & EN)] H. unfold d_insert. rewrite (zget_ok false) by auto. cbn [obind].
  destruct (nth (Z.to_nat i) (db s) false) eqn:B.
  { exists s. split; [auto|]. split; [|auto]. constructor; eauto. }
  destruct (zset_ok false (db s) i true H) as (b & -> & L & _). cbn [obind].
  destruct (Z.eqb_spec (dcur s) 0); [lia|]. rewrite EL.
  set (e := Some (length (dn s))). set (nn := Some {| lf := false; ll := false; lv := i; lp := None; ln := Some k |}).
  pose proof (get_lt _ _ _ EN) as K. pose proof (get_lt _ _ _ N) as Z0.
  assert (EN' : get (dn s ++ [nn]) k = Some (Some n)) by (unfold get; rewrite nth_error_app1; auto).
  unfold upd, deref. rewrite EN'. cbn [obind].
  destruct (set_some (dn s ++ [nn]) k (Some (with_prev e n))) as (st & ES); [rewrite app_length; simpl; lia|].
  rewrite ES. cbn [obind]. eexists. split; [reflexivity|]. split; [|exact L].
  constructor; cbn [dfirst dn dcur dlast]; auto; try lia.
  - destruct (Nat.eq_dec k 0) as [->|NE].
    + rewrite (get_set_eq _ _ _ _ ES). rewrite N in EN. injection EN as <-. exists e. reflexivity.
    + rewrite (get_set_neq _ _ _ _ _ ES NE). exists p. unfold get. rewrite nth_error_app1; auto.
  - exists (length (dn s)), {| lf := false; ll := false; lv := i; lp := None; ln := Some k |}. split; [auto|].
    rewrite (get_set_neq _ _ _ _ _ ES); [|lia]. unfold get. rewrite nth_error_app2 by auto. rewrite Nat.sub_diag. reflexivity.
Qed.

(** For every sequence of insertions the iteration stops after the element inserted first. *)
Theorem delIter_enumerates_only_first size x0 l : Forall (fun i => 0 <= i < Z.of_nat size) (x0 :: l) ->
  exists s s1 s2, d_inserts size (x0 :: l) = Some s /\ d_getFirst s = Some (x0, s1) /\ d_getNext s1 = Some (-1, s2).
Proof.
  intros F. inversion F as [|? ? F1 F2]; subst. unfold d_inserts. cbn [ofold].
  destruct (d_insert_first size x0 F1) as (s & -> & I & L). cbn [obind].
  assert (G : forall l s, DInv s x0 -> Forall (fun i => 0 <= i < Z.of_nat (length (db s))) l ->
     exists s', ofold d_insert l s = Some s' /\ DInv s' x0).
  { clear. induction l as [|i l IH]; intros s I F; simpl.
    - exists s. auto.
    - inversion F as [|? ? F1 F2]; subst. destruct (d_insert_more s x0 i I F1) as (s1 & -> & I1 & L1). cbn [obind].
      apply IH; auto. now rewrite L1. }
  destruct (G l s I) as (s' & -> & [A (p & N) P _]); [now rewrite L|].
  exists s'. unfold d_getFirst. destruct (Z.eqb_spec (dcur s') 0); [lia|]. rewrite A. unfold deref. rewrite N. cbn [obind lv].
  eexists _, _. split; [reflexivity|]. split; [reflexivity|].
  unfold d_getNext. cbn [dcur dit dn deref]. destruct (Z.eqb_spec (dcur s') 0); [lia|]. rewrite N. cbn [obind ll]. reflexivity.
Qed.

(** So a set containing two elements does not enumerate the second one. *)
Theorem delIter_refuted : exists s s1 s2, d_inserts 4 [2; 3] = Some s /\ zget (db s) 2 = Some true /\ zget (db s) 3 = Some true /\
  d_getFirst s = Some (2, s1) /\ d_getNext s1 = Some (-1, s2).
Proof. eexists _, _, _. split; [vm_compute; reflexivity|]. repeat split; vm_compute; reflexivity. Qed.

(** And deleting the first of two elements dereferences a null pointer. *)
Theorem delIter_delete_refuted : exists s s1, d_inserts 4 [2; 3] = Some s /\ d_getFirst s = Some (2, s1) /\ d_delCurrentGetNext s1 = None.
Proof. eexists _, _. split; [vm_compute; reflexivity|]. split; vm_compute; reflexivity. Qed.

Print Assumptions delIter_enumerates_only_first.
Print Assumptions delIter_refuted.
Print Assumptions delIter_delete_refuted.
