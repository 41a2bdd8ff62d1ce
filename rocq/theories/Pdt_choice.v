(** A derivation chooses tasks and methods in the tree. *)
From Coq Require Import Sorting.Sorted.
From Verif Require Import Base Htn_problem Htn_spec Htn_model Htn_proof To_spec To_sem Sog_spec Sf_proof Tab_proof Pdt_model Pdt_spec Pdt_tree Pdt_expand Pdt_prune Pdt_leafs Pdt_vars Pdt_sound.

(** The chosen task of every node (by the path from the root) and the method for it. *)
Definition choice := list nat -> option (bool * nat).
Definition mchoice := list nat -> option nat.
Definition local (P : problem) (d : pnode) (n : nat) (s : option (bool * nat)) (m : option nat) (cs : nat -> option (bool * nat)) : Prop :=
  match s with
  | None => forall c, c < n -> cs c = None
  | Some (true, p) => (exists x, nth_error (pn_prims d) p = Some x) /\ (0 < n -> exists c i j, nth_error (pn_pos d) p = Some (c, i, j) /\ cs c = Some (true, i) /\ forall c', c' < n -> c' <> c -> cs c' = None)
  | Some (false, a) => exists x m0, m = Some m0 /\ nth_error (pn_abs d) a = Some x /\ m0 < nmeth P x /\ pn_exp d = true /\ forall c, c < n -> cs c = option_map (fun k => (cp_prim k, cp_task k)) (find_ptr d a m0 c)
  end.
Definition good (P : problem) (t : pdt) (sel : choice) (me : mchoice) : Prop :=
  forall path u, subtree t path = Some u -> local P (dat u) (length (kids u)) (sel path) (me path) (fun c => sel (path ++ [c])).
Definition pick (s : option (bool * nat)) (d : pnode) : list nat :=
  match s with Some (true, p) => match nth_error (pn_prims d) p with Some x => [x] | None => [] end | _ => [] end.
Fixpoint cplan (t : pdt) (sel : choice) {struct t} : list nat :=
  match t with
  | PNode d ch => match ch with [] => pick (sel []) d | _ => (fix go (l : list pdt) (i : nat) {struct l} := match l with [] => [] | u :: r => cplan u (fun p => sel (i :: p)) ++ go r (S i) end) ch 0 end
  end.
Lemma cplan_kids d ch sel : ch <> [] -> cplan (PNode d ch) sel = flat_map (fun c => match nth_error ch c with Some u => cplan u (fun p => sel (c :: p)) | None => [] end) (seq 0 (length ch)).
Proof.
  intros NE. assert (G : forall l b, (fix go (l : list pdt) (i : nat) {struct l} := match l with [] => [] | u :: r => cplan u (fun p => sel (i :: p)) ++ go r (S i) end) l b =
    flat_map (fun c => match nth_error l (c - b) with Some u => cplan u (fun p => sel (c :: p)) | None => [] end) (seq b (length l))).
  { induction l as [|u r IH]; intros b; auto. cbn [length seq flat_map]. rewrite Nat.sub_diag. cbn [nth_error]. rewrite IH. f_equal. rewrite !flat_map_concat_map. f_equal. apply map_ext_in. intros c Hc. apply in_seq in Hc. replace (c - b) with (S (c - S b)) by lia. reflexivity. }
  destruct ch as [|u r]; [congruence|]. set (ch := u :: r) in *. change (cplan (PNode d ch) sel) with ((fix go (l : list pdt) (i : nat) {struct l} := match l with [] => [] | u :: r => cplan u (fun p => sel (i :: p)) ++ go r (S i) end) ch 0). rewrite G, !flat_map_concat_map. f_equal. apply map_ext. intros c. now rewrite Nat.sub_0_r.
Qed.
Definition lsel (sel : choice) (q : list nat) : option nat := match sel (rev q) with Some (true, i) => Some i | _ => None end.
Lemma cplan_leafs : forall t q (sel : choice), sel_plan (lsel sel) (leafs t q) = cplan t (fun p => sel (rev q ++ p)).
Proof.
  induction t as [d ch IH] using pdt_rect'. intros q sel. destruct ch as [|u0 r0].
  - cbn [leafs sel_plan flat_map cplan]. rewrite app_nil_r. unfold sel_at, lsel, pick. cbn [fst snd]. rewrite app_nil_r. destruct (sel (rev q)) as [[[|] i]|]; auto.
  - set (ch := u0 :: r0) in *. change (leafs (PNode d ch) q) with ((fix go (l : list pdt) (i : nat) {struct l} := match l with [] => [] | u :: r => leafs u (i :: q) ++ go r (S i) end) ch 0).
    change (cplan (PNode d ch) (fun p => sel (rev q ++ p))) with ((fix go (l : list pdt) (i : nat) {struct l} := match l with [] => [] | u :: r => cplan u (fun p => sel (rev q ++ i :: p)) ++ go r (S i) end) ch 0).
    clearbody ch. generalize 0 as b. induction IH as [|u r Hu IH IHr]; intros b; auto. unfold sel_plan in *. rewrite flat_map_app, IHr, Hu. f_equal. clear.
    assert (G : forall t f g, (forall p, f p = g p) -> cplan t f = cplan t g).
    { induction t as [d ch IH] using pdt_rect'. intros f g E. destruct ch as [|u0 r0]; [cbn [cplan]; now rewrite E|]. rewrite !cplan_kids by discriminate. rewrite !flat_map_concat_map. f_equal. apply map_ext. intros c. destruct (nth_error (u0 :: r0) c) as [w|] eqn:Ew; auto. rewrite Forall_forall in IH. apply (IH w (nth_error_In _ _ Ew)). intros p. apply E. }
    apply G. intros p. cbn [rev]. now rewrite <- app_assoc.
Qed.

Lemma finite_choice {A} (R : nat -> A -> Prop) (a0 : A) n : (forall c, c < n -> exists x, R c x) -> exists f : nat -> A, forall c, c < n -> R c (f c).
Proof.
  induction n as [|n IH]; intros H; [exists (fun _ => a0); intros c Hc; lia|]. destruct IH as (f & Hf); [intros c Hc; apply H; lia|]. destruct (H n) as (x & Hx); [lia|]. exists (fun c => if Nat.eqb c n then x else f c). intros c Hc. destruct (Nat.eqb_spec c n) as [->|N]; auto. apply Hf. lia.
Qed.
Lemma total_seq_unique m o o' : (forall j, ~ m_lt m j j) -> total_seq m o -> total_seq m o' -> o = o'.
Proof.
  intros AC T T'. assert (F := total_seq_fop m o T). assert (F' := total_seq_fop m o' T'). destruct T as (N & I & _), T' as (N' & I' & _).
  assert (S : forall j, In j o <-> In j o') by (intros j; rewrite I, I'; reflexivity). clear I I'. revert o' N' S F'. induction o as [|x o IH]; intros o' N' Eq F'.
  - destruct o' as [|y o']; auto. exfalso. apply (Eq y). now left.
  - destruct o' as [|y o']; [exfalso; apply (Eq x); now left|]. inversion N as [|? ? N1 N2]; inversion N' as [|? ? N1' N2']; subst. inversion F as [|? ? F1 F2]; inversion F' as [|? ? F1' F2']; subst. rewrite Forall_forall in F1, F1'.
    assert (x = y). { destruct (Nat.eq_dec x y) as [|NE]; auto. exfalso. assert (H1 : In x o') by (destruct (proj1 (Eq x) (or_introl eq_refl)); [congruence|auto]). assert (H2 : In y o) by (destruct (proj2 (Eq y) (or_introl eq_refl)); [congruence|auto]). apply (AC x). eapply Relation_Operators.t_trans; [apply F1, H2|apply F1', H1]. } subst y. f_equal.
    apply IH; auto. intros j. split; intros H; [destruct (proj1 (Eq j) (or_intror H)) as [->|]; auto; contradiction|destruct (proj2 (Eq j) (or_intror H)) as [->|]; auto; contradiction].
Qed.
Lemma methods_in P x me : In me (p_methods P) -> m_task me = x -> exists m mi, nth_error (methods_of P x) m = Some mi /\ nth_error (p_methods P) mi = Some me.
Proof.
  intros H E. apply In_nth_error in H as (mi & Hm). assert (Z : In mi (methods_of P x)).
  { unfold methods_of, task_to_methods. apply filter_In. split; [apply in_seq; apply get_lt in Hm; lia|]. unfold get. rewrite Hm, E. apply Nat.eqb_refl. }
  apply In_nth_error in Z as (m & Hi). eauto.
Qed.

Section Choose.
  Existing Instance to_kind.
  Variable P : problem.
  Hypothesis WF : wf_problem P.
  Definition demand (K : nat) (d : pnode) (s : option (bool * nat)) (plan : list nat) : Prop :=
    match s with
    | None => plan = []
    | Some (true, p) => exists x, nth_error (pn_prims d) p = Some x /\ plan = [x]
    | Some (false, a) => exists x h, nth_error (pn_abs d) a = Some x /\ h <= K /\ derives P h x plan
    end.
  Lemma build d ch s m0 (fs : nat -> choice * mchoice) : local P d (length ch) s m0 (fun c => fst (fs c) []) -> (forall c u, nth_error ch c = Some u -> good P u (fst (fs c)) (snd (fs c))) ->
    good P (PNode d ch) (fun path => match path with [] => s | c :: r => fst (fs c) r end) (fun path => match path with [] => m0 | c :: r => snd (fs c) r end).
  Proof.
    intros L G [|c path] u E; cbn [subtree] in E; [injection E as <-; exact L|]. apply obind_some in E as (w & E1 & E2). exact (G c w E1 path u E2).
  Qed.
  Theorem choose : forall t K s plan, tree_ok P t -> deep K t -> demand K (dat t) s plan -> exists sel me, sel [] = s /\ good P t sel me /\ cplan t sel = plan.
  Proof.
    induction t as [d ch IH] using pdt_rect'. intros K s plan TO DP DM. apply tree_ok_node in TO as (TK & TN & TC). cbn [dat] in DM. rewrite Forall_forall in IH, TC.
    assert (DK : forall c u, nth_error ch c = Some u -> deep (pred K) u). { intros c u Hc. destruct K as [|K]; [exact I|]. cbn [deep kids pred] in *. destruct DP as [_ DP]. rewrite Forall_forall in DP. apply DP. now apply nth_error_In in Hc. }
    assert (CH : forall c u s' plan', nth_error ch c = Some u -> demand (pred K) (dat u) s' plan' -> exists f : choice * mchoice, fst f [] = s' /\ good P u (fst f) (snd f) /\ cplan u (fst f) = plan').
    { intros c u s' plan' Hc Hd. destruct (IH u (nth_error_In _ _ Hc) (pred K) s' plan') as (sel & me & X); auto; [apply TC; now apply nth_error_In in Hc|eauto|]. exists (sel, me). auto. }
    assert (FIN : forall s m0 (D : nat -> option (bool * nat)) (pl : nat -> list nat), (forall c u, nth_error ch c = Some u -> demand (pred K) (dat u) (D c) (pl c)) -> local P d (length ch) s m0 D -> ch <> [] -> flat_map pl (seq 0 (length ch)) = plan ->
       exists sel me, sel [] = s /\ good P (PNode d ch) sel me /\ cplan (PNode d ch) sel = plan).
    { intros s0 m0 D pl HD HL NE HP. destruct (finite_choice (fun c (f : choice * mchoice) => forall u, nth_error ch c = Some u -> fst f [] = D c /\ good P u (fst f) (snd f) /\ cplan u (fst f) = pl c) (fun _ => None, fun _ => None) (length ch)) as (fs & Hfs).
      { intros c Lc. apply get_some in Lc as (u & Hu). destruct (CH c u (D c) (pl c) Hu (HD c u Hu)) as (f & Hf). exists f. intros u' Hu'. unfold get in Hu. assert (u' = u) by congruence. subst u'. exact Hf. }
      exists (fun path => match path with [] => s0 | c :: r => fst (fs c) r end), (fun path => match path with [] => m0 | c :: r => snd (fs c) r end). split; auto. split.
      - apply build.
        + assert (EQ : forall c, c < length ch -> fst (fs c) [] = D c). { intros c Lc. destruct (get_some _ _ Lc) as (u & Hu). apply (Hfs c Lc u Hu). }
          destruct s0 as [[[|] i]|]; cbn [local] in *.
          * destruct HL as [L1 L2]. split; auto. intros Hn. destruct (L2 Hn) as (c & i0 & j0 & K1 & K2 & K3). exists c, i0, j0. assert (Lc : c < length ch). { destruct (pn_exp d); [|congruence]. destruct TN as [_ NO]. destruct (no_pos_ok _ _ _ NO i c i0 j0 K1) as (u & cs & Hu & _). apply get_lt in Hu. now rewrite map_length in Hu. }
            split; auto. split; [rewrite EQ; auto|]. intros c' L' N'. rewrite EQ; auto.
          * destruct HL as (x & m1 & L1 & L2 & L3 & L4 & L5). exists x, m1. repeat split; auto. intros c Lc. rewrite EQ; auto.
          * intros c Lc. rewrite EQ; auto.
        + intros c u Hc. apply (Hfs c (get_lt _ _ _ Hc) u Hc).
      - rewrite cplan_kids by auto. rewrite <- HP. rewrite !flat_map_concat_map. f_equal. apply map_ext_in. intros c Hc. apply in_seq in Hc. assert (Lc : c < length ch) by lia. destruct (get_some _ _ Lc) as (u & Hu). unfold get in Hu. rewrite Hu. apply (Hfs c Lc u Hu). }
    assert (LF : ch = [] -> forall m1, local P d 0 s m1 (fun _ => None) -> cplan (PNode d ch) (fun _ => s) = plan -> exists sel me, sel [] = s /\ good P (PNode d ch) sel me /\ cplan (PNode d ch) sel = plan).
    { intros -> m1 HL HP. exists (fun path => match path with [] => s | _ => None end), (fun _ => m1). split; auto. split; [|exact HP]. intros [|c path] u E; cbn [subtree] in E; [injection E as <-; exact HL|]. destruct c; discriminate. }
    destruct s as [[[|] i]|]; cbn [demand] in DM.
    - destruct DM as (x & Hx & ->). destruct ch as [|u0 r0] eqn:Ech; [apply (LF eq_refl None); cbn [local]; [split; eauto; lia|cbn [cplan pick]; now rewrite Hx]|]. rewrite <- Ech in *. assert (NE : ch <> []) by congruence. clear Ech u0 r0 LF.
      destruct (pn_exp d) eqn:Ee; [|congruence]. destruct TN as [_ NO]. assert (Lp : i < length (pn_pos d)) by (rewrite (no_pos _ _ _ NO); now apply get_lt in Hx). apply get_some in Lp as ([[c i0] j0] & Hp). unfold get in Hp. destruct (no_pos_ok _ _ _ NO i c i0 j0 Hp) as (u & cs & U1 & U2 & _).
      assert (Lc : c < length ch) by (apply get_lt in U1; now rewrite map_length in U1).
      apply (FIN _ None (fun c' => if Nat.eqb c' c then Some (true, i0) else None) (fun c' => if Nat.eqb c' c then [x] else [])); auto.
      + intros c' u' Hu'. destruct (Nat.eqb_spec c' c) as [->|N]; [|reflexivity]. rewrite nth_error_map, Hu' in U1. injection U1 as <-. exists x. split; auto. congruence.
      + cbn [local]. split; eauto. intros _. exists c, i0, j0. rewrite Nat.eqb_refl. split; auto. split; auto. intros c' _ N. apply Nat.eqb_neq in N. now rewrite N.
      + rewrite (sorted_concat _ _ 0 [c]); [cbn [flat_map]; now rewrite Nat.eqb_refl|constructor; constructor|intros c' [<-|[]]; lia|]. intros c' L' N. destruct (Nat.eqb_spec c' c) as [->|]; auto. exfalso. apply N. now left.
    - destruct DM as (x & h & Hx & Lh & DV). assert (AX := to_abs _ _ TK x (nth_error_In _ _ Hx)). assert (NP : ~ primitive P x) by (unfold primitive; congruence).
      destruct h as [|h]; cbn [derives] in DV; [destruct DV as [[X _]|[]]; contradiction|]. destruct DV as [[X _]|(me & o & plans & D1 & D2 & D3 & D4 & ->)]; [contradiction|].
      destruct K as [|K]; [lia|]. cbn [deep dat kids pred] in *. destruct DP as [[Ee|Ea] _]; [|rewrite Ea in Hx; destruct i; discriminate]. rewrite Ee in TN. destruct TN as [NE NO].
      destruct (methods_in P x me D1 D2) as (m & mi & M1 & M2). destruct (no_meth _ _ _ NO i x m mi Hx M1) as (me' & o' & vs & Q1 & Q2 & Q3 & Q4 & Q5 & Q6). assert (me' = me) by congruence. subst me'.
      assert (o' = o) by (apply (total_seq_unique me); auto; exact (wf_acyclic P WF me D1)). subst o'. rewrite map_length in Q4. destruct (placement_sorted _ _ _ Q4) as [SS IN].
      assert (IX : forall c, In c vs -> exists k j p, nth_error vs k = Some c /\ nth_error o k = Some j /\ nth_error plans k = Some p).
      { intros c Hc. apply In_nth_error in Hc as (k & Hk). assert (L1 : length vs = length o) by apply Q4. assert (L2 : length plans = length o) by (symmetry; clear -D4; induction D4; cbn; auto). assert (Lk := get_lt _ _ _ Hk). assert (Lo : k < length o) by lia. assert (Lp : k < length plans) by lia. apply get_some in Lo as (j & Hj). apply get_some in Lp as (p & Hp). exists k, j, p. auto. }
      assert (NDv : NoDup vs). { clear -SS. induction SS as [|c l S1 IH S2]; constructor; auto. intros H. rewrite Forall_forall in S2. specialize (S2 c H). lia. }
      destruct (finite_choice (fun c p => (In c vs -> exists k, nth_error vs k = Some c /\ nth_error plans k = Some p) /\ (~ In c vs -> p = [])) [] (length ch)) as (pl & Hpl).
      { intros c _. destruct (in_dec Nat.eq_dec c vs) as [H|H]; [destruct (IX c H) as (k & j & p & K1 & _ & K3); exists p; split; [eauto|tauto]|exists []; split; auto; tauto]. }
      assert (F2n : forall {A B} (R : A -> B -> Prop) l l' k a b, Forall2 R l l' -> nth_error l k = Some a -> nth_error l' k = Some b -> R a b).
      { clear. intros A B R l l' k a b F. revert k. induction F; intros [|k] H1 H2; try discriminate; cbn in *; [congruence|eauto]. }
      assert (PL : map pl vs = plans).
      { assert (L2 : length plans = length o) by (symmetry; clear -D4; induction D4; cbn; auto). assert (L1 : length vs = length o) by apply Q4. apply nth_ext with (d := pl 0) (d' := []); [rewrite map_length; lia|]. intros k Lk. rewrite map_length in Lk. rewrite map_nth. destruct (get_some _ _ Lk) as (c & Hc). unfold get in Hc. rewrite (nth_error_nth vs k 0 Hc).
        assert (Hin := nth_error_In _ _ Hc). destruct (Hpl c (IN c Hin)) as [Z _]. destruct (Z Hin) as (k' & K1 & K2). assert (k' = k) by (eapply NoDup_nth_error; eauto; [now apply get_lt in K1|congruence]). subst k'. symmetry. now apply nth_error_nth. }
      apply (FIN _ (Some m) (fun c => option_map (fun k => (cp_prim k, cp_task k)) (find_ptr d i m c)) pl); auto.
      + intros c u Hu. destruct (Hpl c (get_lt _ _ _ Hu)) as [Z1 Z2]. destruct (find_ptr d i m c) as [k|] eqn:Ek; cbn [option_map].
        * assert (Hin := Q6 c k Ek). destruct (Z1 Hin) as (kk & K1 & K2). destruct (IX c Hin) as (k' & j & p & K1' & K3 & K4). assert (k' = kk) by (eapply NoDup_nth_error; eauto; [now apply get_lt in K1'|congruence]). subst k'.
          destruct (F2n _ _ _ _ _ _ _ _ Q5 K3 K1) as (u' & k2 & y & Y1 & Y2 & Y3 & Y4). rewrite nth_error_map, Hu in Y1. injection Y1 as <-. assert (k2 = k) by congruence. subst k2. destruct (F2n _ _ _ _ _ _ _ _ D4 K3 K2) as (y' & W1 & W2). assert (y' = y) by congruence. subst y'.
          destruct k as [[|] i' j']; cbn [cp_prim cp_task ctasks demand] in *; [|exists y, h; split; auto; split; auto; lia]. exists y. split; auto. assert (PY : primitive P y).
          { assert (TKu := TC u (nth_error_In _ _ Hu)). destruct u as [du chu]. apply tree_ok_node in TKu as (TKu & _). apply (to_prims _ _ TKu). now apply nth_error_In in Y4. }
          assert (DP : forall h p, derives P h y p -> p = [y]). { intros h0 p0 D0. destruct h0; cbn [derives] in D0; destruct D0 as [[_ D0]|D0]; auto; [destruct D0|]. destruct D0 as (mm & _ & _ & DD1 & DD2 & _). exfalso. assert (Z := wfm_task P mm (wf_methods _ WF mm DD1)). unfold primitive in PY. rewrite <- DD2 in PY. congruence. }
          eapply DP; eauto.
        * cbn [demand]. apply Z2. intros Hin. destruct (IX c Hin) as (k' & j & p & K1' & K3 & K4). destruct (F2n _ _ _ _ _ _ _ _ Q5 K3 K1') as (u' & k2 & y & _ & Y2 & _). congruence.
      + cbn [local]. exists x, m. split; auto. split; auto. split; [unfold nmeth; now apply get_lt in M1|]. auto.
      + rewrite <- PL, <- flat_map_concat_map. apply sorted_concat; auto; [intros c Hc; specialize (IN c Hc); lia|]. intros c Lc Nc. apply (Hpl c ltac:(lia)). exact Nc.
    - subst plan. destruct ch as [|u0 r0] eqn:Ech; [apply (LF eq_refl None); cbn [local]; [intros c Hc; lia|reflexivity]|]. rewrite <- Ech in *. assert (NE : ch <> []) by congruence. clear Ech u0 r0 LF.
      apply (FIN _ None (fun _ => None) (fun _ => [])); auto; [intros c u _; reflexivity|cbn [local]; auto|]. clear. induction (seq 0 (length ch)); auto.
  Qed.
End Choose.
