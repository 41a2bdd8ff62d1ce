(** A decomposition tree chooses tasks and methods in the tree of a partially ordered problem. *)
From Coq Require Import Sorting.Sorted Relation_Operators.
From Verif Require Import Base Htn_problem Htn_spec Htn_sem Posog_model Posog_spec Posog_order Pp_sem Pc_tree.
From Verif Require Import Pdt_model Pdt_spec Pdt_tree Pdt_expand Pdt_prune Pdt_leafs Pdt_vars Pdt_clause Pdt_dec Pdt_sound Pdt_choice Pp_model Pp_spec Pp_kind Pp_build Pp_round.

Definition osub (w : option dtr) (x : list nat) : option dtr := match w with Some w0 => dsub w0 x | None => None end.
Definition oleaf (w : option dtr) (x : list nat) (a : nat) : Prop := exists tag, osub w x = Some (DA tag a).

Section Choose.
  Variables (P : problem) (C : sconf).
  Instance KI : kind := po_kind P C.
  Hypothesis WF : wf_problem P.

  (** The decomposition demanded of a node when the task [s] is chosen there. *)
  Definition demands (K : nat) (d : pnode) (s : option (bool * nat)) (w : option dtr) : Prop :=
    match s with
    | None => w = None
    | Some (true, p) => exists x tag, nth_error (pn_prims d) p = Some x /\ w = Some (DA tag x)
    | Some (false, a) => exists m kids, nth_error (pn_abs d) a = Some (m_task m) /\ w = Some (DN m kids) /\ Pp_sem.good P (DN m kids) /\ dheight (DN m kids) <= K
    end.
  (** [f] maps the actions of the decomposition to the leafs where they are chosen. *)
  Record follows (t : pdt) (sel : choice) (f : list nat -> list nat) (w : option dtr) : Prop := {
    f_leaf : forall x a, oleaf w x a -> exists d p, subtree t (f x) = Some (PNode d []) /\ sel (f x) = Some (true, p) /\ nth_error (pn_prims d) p = Some a;
    f_onto : forall path d p, subtree t path = Some (PNode d []) -> sel path = Some (true, p) -> exists x a, oleaf w x a /\ f x = path;
    f_inj : forall x y a b, oleaf w x a -> oleaf w y b -> f x = f y -> x = y;
    f_ord : forall x y a b, oleaf w x a -> oleaf w y b -> pbefore P C t (f x) (f y) -> exists w0, w = Some w0 /\ dt_before w0 x y }.
  Definition exact_nodes (t : pdt) : Prop := tall (fun d ch => ch <> [] -> exact_at P C (pn_abs d)) t.

  Lemma before_kids d ch c c' p p' : pbefore P C (PNode d ch) (c :: p) (c' :: p') ->
    (c = c' /\ exists u, nth_error ch c = Some u /\ pbefore P C u p p') \/ (ch <> [] /\ exists adj bdj asgs, node_sog P C (pn_abs d) = Some (adj, bdj, asgs) /\ precedes adj c c').
  Proof.
    intros (r & i & j & p1 & p2 & dd & cc & adj & bdj & asgs & E1 & E2 & E3 & NE & ES & PR). destruct r as [|e r]; cbn [app] in E1, E2.
    - right. injection E1 as <- <-. injection E2 as <- <-. cbn in E3. injection E3 as <- <-. split; auto. exists adj, bdj, asgs. auto.
    - left. injection E1 as <- ->. injection E2 as -> ->. split; auto. cbn [subtree Pdt_model.kids] in E3. unfold get in E3. destruct (nth_error ch c) as [u|] eqn:Eu; [|discriminate]. cbn [obind] in E3. exists u. split; auto. exists r, i, j, p1, p2, dd, cc, adj, bdj, asgs. auto 12.
  Qed.
  Lemma leaf_da tag x z a : oleaf (Some (DA tag x)) z a -> z = [] /\ a = x.
  Proof. intros (t & E). destruct z; cbn in E; [injection E as _ <-; auto|discriminate]. Qed.
  Lemma leaf_dn m kids z a : oleaf (Some (DN m kids)) z a -> exists j z', z = j :: z' /\ oleaf (nth_error kids j) z' a.
  Proof. intros (t & E). destruct z as [|j z]; [discriminate|]. exists j, z. split; auto. exists t. cbn in E. destruct (nth_error kids j); auto. Qed.
  Lemma leaf_some kids j z a : oleaf (nth_error kids j) z a -> j < length kids.
  Proof. intros (t & E). apply nth_error_Some. intros Q. rewrite Q in E. discriminate. Qed.
  Lemma height_kid m kids j (w : dtr) K : dheight (DN m kids) <= K -> nth_error kids j = Some w -> dheight w <= pred K.
  Proof.
    intros H E. cbn [dheight] in H. apply nth_error_In in E. assert (Q : dheight w <= list_max (map dheight kids)); [|lia]. apply (in_map dheight) in E. revert E. generalize (map dheight kids) as l. generalize (dheight w) as h. clear. induction l as [|b l IH]; intros E; [destruct E|]. change (list_max (b :: l)) with (Nat.max b (list_max l)). destruct E as [->|E]; [lia|]. specialize (IH E). lia.
  Qed.

  Theorem po_choose : forall t K s w, tree_ok P t -> deep K t -> acyclic_nodes P C t -> exact_nodes t -> demands K (dat t) s w ->
    exists sel me f, sel [] = s /\ Pdt_choice.good P t sel me /\ follows t sel f w.
  Proof.
    induction t as [d ch IH] using pdt_rect'. intros K s w TO DP AN EN DM. apply tree_ok_node in TO as (TK & TN & TC). cbn [dat] in DM. rewrite Forall_forall in IH, TC.
    apply tall_node in AN as [AN AK]. apply tall_node in EN as [EN EK]. rewrite Forall_forall in AK, EK.
    assert (DK : forall c u, nth_error ch c = Some u -> deep (pred K) u). { intros c u Hc. destruct K as [|K]; [exact I|]. cbn [deep kids pred] in *. destruct DP as [_ DP]. rewrite Forall_forall in DP. apply DP. now apply nth_error_In in Hc. }
    assert (FIN : forall s m0 (D : nat -> option (bool * nat)) (W : nat -> option dtr), (forall c u, nth_error ch c = Some u -> demands (pred K) (dat u) (D c) (W c)) -> local P d (length ch) s m0 D ->
       exists fs : nat -> (choice * mchoice) * (list nat -> list nat), (forall c u, nth_error ch c = Some u -> follows u (fst (fst (fs c))) (snd (fs c)) (W c)) /\
         Pdt_choice.good P (PNode d ch) (fun path => match path with [] => s | c :: r => fst (fst (fs c)) r end) (fun path => match path with [] => m0 | c :: r => snd (fst (fs c)) r end)).
    { clear DM s w. intros s m0 D W HD HL.
      destruct (finite_choice (fun c (f : (choice * mchoice) * (list nat -> list nat)) => forall u, nth_error ch c = Some u -> fst (fst f) [] = D c /\ Pdt_choice.good P u (fst (fst f)) (snd (fst f)) /\ follows u (fst (fst f)) (snd f) (W c)) ((fun _ => None, fun _ => None), fun x => x) (length ch)) as (fs & Hfs).
      { intros c Lc. apply get_some in Lc as (u & Hu). unfold get in Hu. assert (Iu := nth_error_In _ _ Hu). destruct (IH u Iu (pred K) (D c) (W c) (TC u Iu) (DK c u Hu) (AK u Iu) (EK u Iu) (HD c u Hu)) as (sel & me & f & H1 & H2 & H3).
        exists ((sel, me), f). intros u' Hu'. assert (u' = u) by congruence. subst u'. auto. }
      exists fs. split; [intros c u Hc; apply (Hfs c (get_lt _ _ _ Hc) u Hc)|].
      apply (Pdt_choice.build P d ch s m0 (fun c => fst (fs c))); [|intros c u Hc; apply (Hfs c (get_lt _ _ _ Hc) u Hc)].
      assert (EQ : forall c, c < length ch -> fst (fst (fs c)) [] = D c). { intros c Lc. destruct (get_some _ _ Lc) as (u & Hu). apply (Hfs c Lc u Hu). }
      destruct s as [[[|] i]|]; cbn [local] in *.
      - destruct HL as [L1 L2]. split; auto. intros Hn. destruct (L2 Hn) as (c & i0 & j0 & K1 & K2 & K3). exists c, i0, j0.
        assert (Lc : c < length ch). { destruct (pn_exp d); [|subst ch; cbn in Hn; lia]. destruct TN as [_ NO]. destruct (no_pos_ok _ _ _ NO i c i0 j0 K1) as (u & cs & Hu & _). apply get_lt in Hu. now rewrite map_length in Hu. }
        split; auto. split; [rewrite EQ; auto|]. intros c' L' N'. rewrite EQ; auto.
      - destruct HL as (x & m1 & L1 & L2 & L3 & L4 & L5). exists x, m1. repeat split; auto. intros c Lc. rewrite EQ; auto.
      - intros c Lc. rewrite EQ; auto. }
    assert (SUBT : forall c u p, nth_error ch c = Some u -> subtree (PNode d ch) (c :: p) = subtree u p) by (intros c u p Hc; cbn [subtree kids]; unfold get; now rewrite Hc).
    assert (PATH : ch <> [] -> forall path d', subtree (PNode d ch) path = Some (PNode d' []) -> exists c p u, path = c :: p /\ nth_error ch c = Some u /\ subtree u p = Some (PNode d' [])).
    { intros NE [|c p] d' E; [cbn in E; injection E as _ E; contradiction|]. cbn [subtree kids] in E. unfold get in E. destruct (nth_error ch c) as [u|] eqn:Hc; [|discriminate]. eauto 6. }
    assert (NOLEAF : forall x a, ~ oleaf None x a) by (intros x a (t & E); discriminate).
    assert (LF : ch = [] -> forall m1, local P d 0 s m1 (fun _ => None) -> Pdt_choice.good P (PNode d ch) (fun path => match path with [] => s | _ => None end) (fun _ => m1)).
    { intros -> m1 HL [|c path] u E; cbn [subtree] in E; [injection E as <-; exact HL|]. destruct c; discriminate. }
    destruct s as [[[|] i]|]; cbn [demands] in DM.
    - destruct DM as (x & tag & Hx & ->). destruct ch as [|u0 r0] eqn:Ech.
      + exists (fun path => match path with [] => Some (true, i) | _ => None end), (fun _ => None), (fun x => x). split; auto. split; [apply (LF eq_refl None); split; [eauto|lia]|]. constructor.
        * intros z a H. apply leaf_da in H as [-> ->]. exists d, i. auto.
        * intros path d' p E S. destruct path; [|discriminate]. exists [], x. split; auto. now exists tag.
        * intros z y a b H H' _. apply leaf_da in H as [-> _]. apply leaf_da in H' as [-> _]. auto.
        * intros z y a b H _ (r & j & k & p1 & p2 & _ & _ & _ & _ & _ & E & _). apply leaf_da in H as [-> _]. destruct r; discriminate.
      + rewrite <- Ech in *. assert (NE : ch <> []) by congruence. clear Ech u0 r0 LF.
        destruct (pn_exp d) eqn:Ee; [|congruence]. destruct TN as [_ NO]. assert (Lp : i < length (pn_pos d)) by (rewrite (no_pos _ _ _ NO); now apply get_lt in Hx). apply get_some in Lp as ([[c i0] j0] & Hp). unfold get in Hp. destruct (no_pos_ok _ _ _ NO i c i0 j0 Hp) as (u' & cs & U1 & U2 & _).
        rewrite nth_error_map in U1. destruct (nth_error ch c) as [u|] eqn:Hc; [|discriminate]. injection U1 as <-.
        destruct (FIN (Some (true, i)) None (fun c' => if Nat.eqb c' c then Some (true, i0) else None) (fun c' => if Nat.eqb c' c then Some (DA tag x) else None)) as (fs & HF & G).
        { intros c' u' Hu'. destruct (Nat.eqb_spec c' c) as [->|N]; [|reflexivity]. rewrite Hc in Hu'. injection Hu' as <-. exists x, tag. split; auto. congruence. }
        { cbn [local]. split; eauto. intros _. exists c, i0, j0. rewrite Nat.eqb_refl. split; auto. split; auto. intros c' _ N. apply Nat.eqb_neq in N. now rewrite N. }
        assert (Fc := HF c u Hc). rewrite Nat.eqb_refl in Fc. destruct Fc as [F1 F2 F3 F4].
        eexists _, _, (fun z => c :: snd (fs c) z). split; [|split; [exact G|]]; [reflexivity|]. constructor.
        * intros z a H. destruct (F1 z a H) as (d' & p & S1 & S2 & S3). exists d', p. rewrite (SUBT c u _ Hc). auto.
        * intros path d' p E S. destruct (PATH NE path d' E) as (c' & p' & u' & -> & Hc' & E'). assert (F' := HF c' u' Hc'). destruct (Nat.eqb_spec c' c) as [->|N].
          -- rewrite Hc in Hc'. injection Hc' as <-. destruct (F2 p' d' p E' S) as (z & a & Hz & <-). eauto.
          -- destruct (f_onto _ _ _ _ F' p' d' p E' S) as (z & a & Hz & _). elim (NOLEAF z a Hz).
        * intros z y a b H H' E. injection E as E. eauto.
        * intros z y a b H H' B. apply before_kids in B as [(_ & u' & Hu' & B)|(_ & adj & bdj & asgs & ES & PR)]; [|elim (AN NE adj bdj asgs ES c PR)].
          rewrite Hc in Hu'. injection Hu' as <-. eauto.
    - destruct DM as (m & kids & Hx & -> & GD & HH). set (x := m_task m) in *. inversion GD as [|? ? D1 D2 D3]; subst m0 kids0. rewrite Forall_forall in D3.
      destruct K as [|K]; [cbn in HH; lia|]. cbn [deep dat Pdt_model.kids] in DP. destruct DP as [[Ee|Ea] _]; [|rewrite Ea in Hx; destruct i; discriminate]. rewrite Ee in TN. destruct TN as [NE NO]. clear LF.
      destruct (Pdt_choice.methods_in P x m D1 eq_refl) as (mm & mi & M1 & M2). destruct (no_meth _ _ _ NO i x mm mi Hx M1) as (me' & o & vs & Q1 & Q2 & Q3 & Q4 & Q5 & Q6). assert (me' = m) by congruence. subst me'. rewrite map_length in Q4. destruct (placement_sorted _ _ _ Q4) as [SS IN].
      destruct Q3 as (adj & bdj & asgs & ES & GO & LN & NDo & Io & _ & EX). specialize (EX (EN NE)).
      assert (LK : length kids = length (m_subs m)) by (rewrite <- D2; now rewrite map_length).
      destruct (finite_choice (fun j c => exists y, nth_error o y = Some j /\ nth_error vs y = Some c) 0 (length (m_subs m))) as (g & Hg).
      { intros j Lj. apply Io in Lj. destruct (pos_of _ _ _ Q5 j Lj) as (y & c & Y1 & Y2 & _). eauto. }
      assert (GI : forall j k, j < length (m_subs m) -> k < length (m_subs m) -> g j = g k -> j = k).
      { intros j k Lj Lk E. destruct (Hg j Lj) as (y & Y1 & Y2). destruct (Hg k Lk) as (z & Z1 & Z2). rewrite E in Y2. assert (y = z) by (eapply sorted_inj; eauto). subst z. congruence. }
      assert (GV : forall c, In c vs -> exists j, j < length (m_subs m) /\ g j = c).
      { intros c Hc. destruct (pos_of' _ _ _ Q5 c Hc) as (y & j & Y1 & Y2 & _). assert (Lj : j < length (m_subs m)) by (apply Io; now apply nth_error_In in Y1). exists j. split; auto. destruct (Hg j Lj) as (z & Z1 & Z2).
        assert (y = z) by (eapply NoDup_nth_error; [exact NDo|now apply get_lt in Y1|congruence]). subst z. congruence. }
      destruct (finite_choice (fun c (W : option dtr) => (forall j, j < length (m_subs m) -> g j = c -> W = nth_error kids j) /\ (~ In c vs -> W = None)) None (length ch)) as (W & HW).
      { intros c _. destruct (in_dec Nat.eq_dec c vs) as [H|H].
        - destruct (GV c H) as (j & Lj & Ej). exists (nth_error kids j). split; [|tauto]. intros k Lk Ek. rewrite (GI j k Lj Lk); congruence.
        - exists None. split; auto. intros j Lj E. elim H. destruct (Hg j Lj) as (y & _ & Y). subst c. now apply nth_error_In in Y. }
      assert (WG : forall j, j < length (m_subs m) -> W (g j) = nth_error kids j /\ exists u, nth_error ch (g j) = Some u).
      { intros j Lj. destruct (Hg j Lj) as (y & _ & Y). assert (L := IN _ (nth_error_In _ _ Y)). destruct (HW (g j) L) as [H _]. split; [auto|]. destruct (get_some _ _ L) as (u & Hu). exists u. exact Hu. }
      destruct (FIN (Some (false, i)) (Some mm) (fun c => option_map (fun k => (cp_prim k, cp_task k)) (find_ptr d i mm c)) W) as (fs & HF & G).
      { intros c u Hu. destruct (HW c (get_lt _ _ _ Hu)) as [Z1 Z2]. destruct (find_ptr d i mm c) as [k|] eqn:Ek; cbn [option_map].
        - assert (Hin := Q6 c k Ek). destruct (pos_of' _ _ _ Q5 c Hin) as (y & j & Y1 & Y2 & (u' & k2 & t & K1 & K2 & K3 & K4)). assert (Lj : j < length (m_subs m)) by (apply Io; now apply nth_error_In in Y1).
          rewrite nth_error_map, Hu in K1. injection K1 as <-. assert (k2 = k) by congruence. subst k2.
          assert (GJ : g j = c). { destruct (Hg j Lj) as (z & A1 & A2). assert (y = z) by (eapply NoDup_nth_error; [exact NDo|now apply get_lt in Y1|congruence]). subst z. congruence. }
          rewrite (Z1 j Lj GJ). destruct (nth_error kids j) as [wj|] eqn:Ew; [|apply nth_error_None in Ew; lia].
          assert (LB : dlab wj = t). { assert (Z : nth_error (map dlab kids) j = Some (dlab wj)) by (rewrite nth_error_map, Ew; reflexivity). rewrite D2 in Z. congruence. }
          assert (Gj := D3 wj (nth_error_In _ _ Ew)). assert (Hj := height_kid m kids j wj _ HH Ew).
          assert (TKu := TC u (nth_error_In _ _ Hu)). destruct u as [du chu]. apply tree_ok_node in TKu as (TKu & _). cbn [dat] in *.
          destruct k as [pr i' j']. cbn [cp_prim cp_task] in *. destruct pr; cbn [ctasks demands] in *.
          + assert (PT := to_prims _ _ TKu t (nth_error_In _ _ K4)). destruct wj as [tg a|m2 kids2]; cbn [dlab] in LB; [exists t, tg; subst a; auto|]. exfalso. inversion Gj as [|? ? I2 _ _]; subst. assert (Z := wfm_task P m2 (wf_methods _ WF m2 I2)). unfold primitive in PT. congruence.
          + assert (PT := to_abs _ _ TKu t (nth_error_In _ _ K4)). destruct wj as [tg a|m2 kids2]; cbn [dlab] in LB; [|exists m2, kids2; subst t; auto]. exfalso. inversion Gj as [? ? PA|]; subst. unfold primitive in PA. congruence.
        - cbn [demands]. apply Z2. intros Hin. destruct (pos_of' _ _ _ Q5 c Hin) as (y & j & _ & _ & (u' & k2 & t & _ & K2 & _)). congruence. }
      { cbn [local]. exists x, mm. split; auto. split; auto. split; [unfold nmeth; now apply get_lt in M1|]. auto. }
      assert (FJ : forall j, j < length (m_subs m) -> exists u, nth_error ch (g j) = Some u /\ follows u (fst (fst (fs (g j)))) (snd (fs (g j))) (nth_error kids j)).
      { intros j Lj. destruct (WG j Lj) as [E (u & Hu)]. exists u. split; auto. rewrite <- E. auto. }
      assert (LJ : forall j z a, oleaf (nth_error kids j) z a -> j < length (m_subs m)) by (intros j z a H; apply leaf_some in H; lia).
      eexists _, _, (fun z => match z with [] => [] | j :: z' => g j :: snd (fs (g j)) z' end). split; [|split; [exact G|]]; [reflexivity|]. constructor.
      + intros z a H. apply leaf_dn in H as (j & z' & -> & H). destruct (FJ j (LJ j z' a H)) as (u & Hu & F). destruct (f_leaf _ _ _ _ F z' a H) as (d' & p & S1 & S2 & S3). exists d', p. rewrite (SUBT _ u _ Hu). auto.
      + intros path d' p E S. destruct (PATH NE path d' E) as (c & p' & u & -> & Hc & E'). assert (F := HF c u Hc). destruct (f_onto _ _ _ _ F p' d' p E' S) as (z & a & (tg & Hz) & EZ).
        destruct (in_dec Nat.eq_dec c vs) as [H|H]; [|rewrite (proj2 (HW c (get_lt _ _ _ Hc)) H) in Hz; discriminate]. destruct (GV c H) as (j & Lj & Ej). rewrite (proj1 (HW c (get_lt _ _ _ Hc)) j Lj Ej) in Hz.
        exists (j :: z), a. rewrite Ej. split; [|now rewrite EZ]. exists tg. cbn [osub dsub]. destruct (nth_error kids j); auto.
      + intros z y a b H H' E. apply leaf_dn in H as (j & z' & -> & H). apply leaf_dn in H' as (k & y' & -> & H'). injection E as E1 E2. assert (j = k) by (eapply GI; eauto). subst k. destruct (FJ j (LJ j z' a H)) as (u & Hu & F). f_equal. exact (f_inj _ _ _ _ F z' y' a b H H' E2).
      + intros z y a b H H' B. apply leaf_dn in H as (j & z' & -> & H). apply leaf_dn in H' as (k & y' & -> & H'). exists (DN m kids). split; auto. assert (Lj := LJ j z' a H). assert (Lk := LJ k y' b H'). apply before_kids in B as [(E & u & Hu & B)|(_ & adj' & bdj' & asgs' & ES' & PR)].
        * assert (j = k) by (eapply GI; eauto). subst k. destruct (FJ j Lj) as (u' & Hu' & F). assert (u' = u) by congruence. subst u'. destruct (f_ord _ _ _ _ F z' y' a b H H' B) as (w0 & E0 & (r & j1 & k1 & x1 & y1 & m1 & kids1 & E1 & E2 & E3 & LT)).
          exists (j :: r), j1, k1, x1, y1, m1, kids1. rewrite E1, E2. split; auto. split; auto. split; auto. cbn [dsub]. now rewrite E0.
        * rewrite ES in ES'. injection ES' as <- <- <-. destruct (Hg j Lj) as (p & P1 & P2). destruct (Hg k Lk) as (q & R1 & R2). assert (LT := EX p q j k (g j) (g k) P1 P2 R1 R2 PR).
          exists [], j, k, z', y', m, kids. auto.
    - subst w. assert (FO : forall sel f, (forall path d' p, subtree (PNode d ch) path = Some (PNode d' []) -> sel path = Some (true, p) -> False) -> follows (PNode d ch) sel f None).
      { intros sel f H. constructor; try (intros ? ? Q; elim (NOLEAF _ _ Q)); try (intros ? ? ? ? Q; elim (NOLEAF _ _ Q)). intros path d' p E S. elim (H path d' p E S). }
      destruct ch as [|u0 r0] eqn:Ech.
      + exists (fun path => match path with [] => None | _ => None end), (fun _ => None), (fun x => x). split; auto. split; [apply (LF eq_refl None); intros c Hc; lia|]. apply FO. intros [|c path] d' p _ S; discriminate.
      + rewrite <- Ech in *. assert (NE : ch <> []) by congruence. clear Ech u0 r0 LF.
        destruct (FIN None None (fun _ => None) (fun _ => None)) as (fs & HF & G); [intros c u _; reflexivity|intros c _; reflexivity|].
        eexists _, _, (fun x => x). split; [|split; [exact G|]]; [reflexivity|]. apply FO. intros path d' p E S. destruct (PATH NE path d' E) as (c & p' & u & -> & Hc & E'). destruct (f_onto _ _ _ _ (HF c u Hc) p' d' p E' S) as (z & a & Hz & _). exact (NOLEAF z a Hz).
  Qed.
End Choose.
