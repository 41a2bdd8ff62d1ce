(** The table of heuristics in the search (C209): src/options.ggo 33 says that a heuristic that is specified twice is computed once. *)
From Coq Require Import String.
From Verif Require Import Base Htn_problem Htn_model Fringe_model Astar_model Astar_thm Arg_spec Arg_model Arg_proof Arg_thm.
Local Open Scope Z_scope.

Lemma list_ext : forall A (l l' : list A), (forall i, nth_error l i = nth_error l' i) -> l = l'.
Proof.
  induction l as [|x l IH]; intros [|y l'] H; auto; try (specialize (H 0%nat); discriminate). f_equal; [specialize (H 0%nat); cbn in H; congruence|]. apply IH. intros i. exact (H (S i)).
Qed.

(** SearchEngine.cpp 287-298 and PriorityQueueSearch.h 117-136: the heuristics of the search for a table of objects: the address is the number of the object, which was created for the specification with this number. *)
Definition table {A} (sem : A -> world -> node -> option Z) (xs : list A) (hs : list nat) : list (nat * (world -> node -> option Z)) :=
  map (fun o => (o, fun w n => match nth_error xs o with Some x => sem x w n | None => None end)) hs.

(** [sem] is what a heuristic computes; it depends on the name and on the map of arguments only. The stored values are those of the heuristics as they were specified, although objects are shared; a node is dropped exactly if one of the heuristics reports a dead end. *)
Theorem table_values : forall V (E : aenv V) sem specs hs xs w n,
  (forall x y, fst x = fst y -> (forall k, find (snd x) k = find (snd y) k) -> forall w n, sem x w n = sem y w n) ->
  build specs [] [] = Some hs -> omap parse specs = Some xs -> a_hs E = table sem xs hs ->
  match eval_hs (a_hs E) [] w n with
  | Some vs => map Some vs = map (fun x => sem x w n) xs
  | None => exists x, In x xs /\ sem x w n = None
  end.
Proof.
  intros V E sem specs hs xs w n RS B EX HE. destruct (arg_objects specs hs B) as (LE & xs' & EX' & OW & EQ). assert (xs' = xs) by congruence. subst xs'.
  assert (LX : List.length xs = List.length specs). { clear -EX. revert xs EX. induction specs as [|s specs IH]; intros xs EX; cbn [omap] in EX; [now injection EX as <-|]. apply obind_some in EX as (a & _ & EX). apply obind_some in EX as (b & Eb & EX). injection EX as <-. cbn. f_equal. auto. }
  assert (SA : same_address E). { intros a f g Hf Hg w1 n1. rewrite HE in Hf, Hg. apply in_map_iff in Hf as (o & Q1 & _). apply in_map_iff in Hg as (o' & Q2 & _). injection Q1 as <- <-. injection Q2 as <- <-. reflexivity. }
  assert (VAL : forall i o x, nth_error hs i = Some o -> nth_error xs i = Some x -> match nth_error xs o with Some y => sem y w n | None => None end = sem x w n).
  { intros i o x Ho Hx. destruct (OW i o Ho) as [L Oo]. destruct (nth_error xs o) as [y|] eqn:Ey.
    - destruct (proj1 (EQ o i y x Ey Hx)) as [S1 S2]; [congruence|]. auto.
    - apply nth_error_None in Ey. assert (i < List.length xs)%nat by (apply nth_error_Some; congruence). lia. }
  assert (ME : map (fun p => snd p w n) (a_hs E) = map (fun x => sem x w n) xs).
  { rewrite HE. unfold table. rewrite map_map. cbn [snd]. apply list_ext. intros i. rewrite !nth_error_map. destruct (nth_error hs i) as [o|] eqn:Ho, (nth_error xs i) as [x|] eqn:Hx; cbn [option_map]; auto.
    - f_equal. eauto.
    - apply nth_error_None in Hx. assert (i < List.length hs)%nat by (apply nth_error_Some; congruence). lia.
    - apply nth_error_None in Ho. assert (i < List.length xs)%nat by (apply nth_error_Some; congruence). lia. }
  pose proof (eval_hs_exact V E w n SA) as X. destruct (eval_hs (a_hs E) [] w n) as [vs|]; [congruence|].
  destruct X as (p & Ip & Ep). assert (I : In None (map (fun x => sem x w n) xs)) by (rewrite <- ME; apply in_map_iff; eauto). apply in_map_iff in I as (x & E1 & I). eauto.
Qed.

(** A heuristic is computed for the first entry of an object only: what the further entries would compute has no influence. *)
Theorem computed_once : forall hs hs' w n, map fst hs = map fst hs' ->
  (forall i a f f', nth_error hs i = Some (a, f) -> nth_error hs' i = Some (a, f') -> (forall j, (j < i)%nat -> nth_error (map fst hs) j <> Some a) -> f w n = f' w n) ->
  eval_hs hs [] w n = eval_hs hs' [] w n.
Proof.
  intros hs hs' w n. assert (G : forall hs hs' prev, map fst hs = map fst hs' ->
    (forall i a f f', nth_error hs i = Some (a, f) -> nth_error hs' i = Some (a, f') -> ~ In a (map fst prev) -> (forall j, (j < i)%nat -> nth_error (map fst hs) j <> Some a) -> f w n = f' w n) ->
    eval_hs hs prev w n = eval_hs hs' prev w n); [|intros M H; apply G; auto; intros; eapply H; eauto].
  clear hs hs'. induction hs as [|[a f] hs IH]; intros [|[a' f'] hs'] prev M H; try discriminate; [reflexivity|]. injection M as <- M. cbn [eval_hs].
  assert (Q : match List.find (fun p => Nat.eqb (fst p) a) prev with Some p => Some (snd p) | None => f w n end = match List.find (fun p => Nat.eqb (fst p) a) prev with Some p => Some (snd p) | None => f' w n end).
  { destruct (List.find _ prev) as [p|] eqn:EF; auto. apply (H 0%nat a f f'); auto; [|intros j Hj; lia]. intros I. apply in_map_iff in I as (p & Ep & Ip). pose proof (find_none _ _ EF p Ip) as N. cbn beta in N. rewrite Ep, Nat.eqb_refl in N. discriminate. }
  rewrite Q. destruct (match List.find _ prev with Some p => Some (snd p) | None => f' w n end) as [v|]; cbn [obind]; auto. rewrite (IH hs' (prev ++ [(a, v)])%list); auto.
  intros i b g g' H1 H2 NI NE. rewrite map_app, in_app_iff in NI. apply (H (S i) b g g'); auto. intros [|j] Hj; cbn; [|apply NE; lia]. intros Eb. injection Eb as <-. apply NI. right. now left.
Qed.

Module Ex.
  (** Three specifications, two of them the same: the values are those of zero, cost and zero. *)
  Open Scope string_scope.
  Definition sem (x : string * args) (w : world) (n : node) : option Z := if String.eqb (fst x) "cost" then h_cost (inverted (snd x)) w n else h_zero w n.
  Lemma sem_ok : forall x y, fst x = fst y -> (forall k, find (snd x) k = find (snd y) k) -> forall w n, sem x w n = sem y w n.
  Proof. intros x y E1 E2 w n. unfold sem, inverted, arg, value. rewrite E1, !E2. reflexivity. Qed.
  Definition specs : list string := ["cost(invert=true)"; "zero"; "cost(invert=true)"].
  Definition xs : list (string * args) := [("cost", [("invert", "true")]); ("zero", []); ("cost", [("invert", "true")])].
  Definition E : aenv unit := {| a_hs := table sem xs [0; 1; 0]%nat; a_gval := GNone; a_weight := 1; a_push := cons; a_pop := fun _ => None; a_vis := fun _ v _ _ => (true, v); a_rnd := fun _ => 7; a_sub := false |}.
  Example values w n vs : eval_hs (a_hs E) [] w n = Some vs -> map Some vs = [Some (- Z.of_nat (n_cost n)); Some 0; Some (- Z.of_nat (n_cost n))].
  Proof.
    intros Q. pose proof (table_values unit E sem specs [0; 1; 0]%nat xs w n sem_ok eq_refl eq_refl eq_refl) as X. rewrite Q in X. rewrite X. cbn [map xs sem fst snd String.eqb h_cost h_zero inverted].
    change (sem ("cost", [("invert", "true")]) w n) with (Some (Z.of_nat (n_cost n) * -1)). change (sem ("zero", []) w n) with (Some 0). replace (Z.of_nat (n_cost n) * -1) with (- Z.of_nat (n_cost n)) by lia. reflexivity.
  Qed.
  Example once w n g : eval_hs [(0%nat, h_zero); (1%nat, h_cost true); (0%nat, g)] [] w n = eval_hs [(0%nat, h_zero); (1%nat, h_cost true); (0%nat, h_zero)] [] w n.
  Proof.
    apply computed_once; [reflexivity|]. intros [|[|[|i]]] a f f' H1 H2 NE; cbn in H1, H2; try congruence. injection H1 as <- <-. now elim (NE 0%nat ltac:(lia)).
  Qed.
End Ex.
Print Assumptions table_values.
Print Assumptions computed_once.
