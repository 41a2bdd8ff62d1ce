(** Invariants of the path decomposition tree. *)
From Coq Require Import Sorting.Sorted.
From Verif Require Import Base Htn_problem Htn_spec To_spec Sog_model Sog_spec Sog_proof Sf_proof Tab_proof Pdt_model Pdt_spec Pdt_tree.
From Verif Require Htn_model Htn_proof.

Definition ctasks (pr : bool) (u : pnode) : list nat := if pr then pn_prims u else pn_abs u.
Definition ccauses (pr : bool) (u : pnode) : list (list cause) := if pr then pn_cp u else pn_ca u.

(** What is known about the vertices [vs] of the subtasks [o] of a method, for a node with the given abstract tasks and number of vertices. *)
Class kind := kd : list nat -> method -> list nat -> nat -> list nat -> Prop.
(** Totally ordered problems: [o] is the order of the method. *)
Definition to_kind : kind := fun _ me o _ _ => total_seq me o.

(** An expanded node and its children. *)
Record node_ok {KI : kind} (P : problem) (d : pnode) (us : list pnode) : Prop := {
  no_len : forall u pr, In u us -> length (ccauses pr u) = length (ctasks pr u);
  no_pos : length (pn_pos d) = length (pn_prims d);
  no_pos_ok : forall p c i j, nth_error (pn_pos d) p = Some (c, i, j) -> exists u cs, nth_error us c = Some u /\ nth_error (pn_prims u) i = nth_error (pn_prims d) p /\
    nth_error (pn_cp u) i = Some cs /\ nth_error cs j = Some (None, p);
  no_ptr : forall a m c k, find_ptr d a m c = Some k -> exists u cs, nth_error us c = Some u /\ nth_error (ccauses (cp_prim k) u) (cp_task k) = Some cs /\ nth_error cs (cp_cause k) = Some (Some a, m);
  no_cause : forall c u pr i cs j x, nth_error us c = Some u -> nth_error (ccauses pr u) i = Some cs -> nth_error cs j = Some x ->
    match x with
    | (None, p) => pr = true /\ nth_error (pn_pos d) p = Some (c, i, j)
    | (Some a, m) => find_ptr d a m c = Some {| cp_prim := pr; cp_task := i; cp_cause := j |} /\ exists t, nth_error (pn_abs d) a = Some t /\ m < nmeth P t
    end;
  no_ne : forall u pr cs, In u us -> In cs (ccauses pr u) -> cs <> [];
  no_meth : forall a t m mi, nth_error (pn_abs d) a = Some t -> nth_error (methods_of P t) m = Some mi -> exists me o vs,
    nth_error (p_methods P) mi = Some me /\ m_task me = t /\ kd (pn_abs d) me o (length us) vs /\ placement (length us) o vs /\
    Forall2 (fun j c => exists u k x, nth_error us c = Some u /\ find_ptr d a m c = Some k /\ nth_error (m_subs me) j = Some x /\ nth_error (ctasks (cp_prim k) u) (cp_task k) = Some x) o vs /\
    forall c k, find_ptr d a m c = Some k -> In c vs }.

(** The tasks of a node. *)
Record tasks_ok (P : problem) (d : pnode) : Prop := {
  to_nodup : NoDup (pn_prims d);
  to_prims : forall p, In p (pn_prims d) -> primitive P p;
  to_abs : forall t, In t (pn_abs d) -> nth_error (p_prim P) t = Some false }.

Fixpoint tree_ok {KI : kind} (P : problem) (t : pdt) : Prop :=
  match t with
  | PNode d ch => tasks_ok P d /\ (if pn_exp d then ch <> [] /\ node_ok P d (map dat ch) else ch = []) /\
      (fix all (l : list pdt) : Prop := match l with [] => True | u :: r => tree_ok P u /\ all r end) ch
  end.
Lemma tree_ok_node {KI : kind} P d ch : tree_ok P (PNode d ch) <-> tasks_ok P d /\ (if pn_exp d then ch <> [] /\ node_ok P d (map dat ch) else ch = []) /\ Forall (tree_ok P) ch.
Proof.
  cbn [tree_ok]. assert (G : forall l, (fix all (l : list pdt) : Prop := match l with [] => True | u :: r => tree_ok P u /\ all r end) l <-> Forall (tree_ok P) l).
  { induction l as [|u r IH]; [split; constructor|]. rewrite IH. split; [intros [H1 H2]; now constructor|]. intros H. inversion H; auto. }
  now rewrite G.
Qed.

(** Nodes with abstract tasks above level K are expanded. *)
Fixpoint deep (K : nat) (t : pdt) : Prop :=
  match K with
  | 0 => True
  | S K' => (pn_exp (dat t) = true \/ pn_abs (dat t) = []) /\ Forall (deep K') (kids t)
  end.

(** Something holds for all nodes. *)
Fixpoint tall (R : pnode -> list pdt -> Prop) (t : pdt) : Prop :=
  match t with PNode d ch => R d ch /\ (fix all (l : list pdt) : Prop := match l with [] => True | u :: r => tall R u /\ all r end) ch end.
Lemma tall_node R d ch : tall R (PNode d ch) <-> R d ch /\ Forall (tall R) ch.
Proof.
  cbn [tall]. assert (G : forall l, (fix all (l : list pdt) : Prop := match l with [] => True | u :: r => tall R u /\ all r end) l <-> Forall (tall R) l).
  { induction l as [|u r IH]; [split; constructor|]. rewrite IH. split; [intros [H1 H2]; now constructor|]. intros H. inversion H; auto. }
  now rewrite G.
Qed.

(** Variables of the tasks of a node. *)
Definition task_vars (d : pnode) : list Z := somes (pn_pvar d) ++ somes (pn_avar d).
Definition own_vars (d : pnode) : list Z := somes [pn_none d] ++ task_vars d.
Fixpoint tvars (t : pdt) : list Z := match t with PNode d ch => own_vars d ++ flat_map tvars ch end.
(** The variable arrays are complete or not there at all, and nothing is below a node without variables. *)
Definition vcond (d : pnode) (ch : list pdt) : Prop :=
  match pn_none d with
  | None => pn_pvar d = [] /\ pn_avar d = []
  | Some _ => length (pn_pvar d) = length (pn_prims d) /\ length (pn_avar d) = length (pn_abs d)
  end /\ (task_vars d = [] -> forall u, In u ch -> task_vars (dat u) = []).

(** Induction over trees. *)
Section Ind.
  Variable Q : pdt -> Prop.
  Hypothesis H : forall d ch, Forall Q ch -> Q (PNode d ch).
  Fixpoint pdt_rect' (t : pdt) : Q t :=
    match t with
    | PNode d ch => H d ch ((fix go (l : list pdt) : Forall Q l := match l with [] => Forall_nil Q | u :: r => Forall_cons u (pdt_rect' u) (go r) end) ch)
    end.
End Ind.

Section Expand.
  Context {KI : kind}.
  Variables (P : problem).
  Hypothesis WF : wf_problem P.

  Definition expanded (d d' : pnode) (us : list pnode) : Prop := us <> [] /\ node_ok P d' us /\
    pn_prims d' = pn_prims d /\ pn_abs d' = pn_abs d /\ pn_cp d' = pn_cp d /\ pn_ca d' = pn_ca d /\ pn_exp d' = true /\
    pn_none d' = pn_none d /\ pn_pvar d' = pn_pvar d /\ pn_avar d' = pn_avar d /\ pn_mvar d' = pn_mvar d /\ Forall (tasks_ok P) us /\ Forall blank us.
  Lemma expand_pick_ok pick d ms n asgs : (forall occ p, exists c, pick n occ p = Some c /\ c < n) -> tasks_ok P d -> Permutation ms (gather P (pn_abs d)) -> Forall2 (fits P n) (map (fun '(m, _, _) => m) ms) asgs -> 0 < n ->
    (forall m a mi asg me, In ((m, a, mi), asg) (combine ms asgs) -> nth_error (p_methods P) m = Some me -> exists o, (forall j, In j o <-> j < length (m_subs me)) /\
       kd (pn_abs d) me o n (map (fun j => nth j asg 0) o) /\ placement n o (map (fun j => nth j asg 0) o)) ->
    exists d' us, expand_pick P pick d ms n asgs = Some (d', map (fun u => PNode u []) us) /\ expanded d d' us.
  Proof.
    intros PK TO PM PL NP KD. unfold expand_pick, expanded.
    assert (MI : forall m a mi, In (m, a, mi) ms <-> exists t, nth_error (pn_abs d) a = Some t /\ nth_error (methods_of P t) mi = Some m).
    { intros m a mi. rewrite <- gather_in. split; apply Permutation_in; auto. now apply Permutation_sym. }
    assert (MK : NoDup (map key ms)). { eapply Permutation_NoDup; [|apply (gather_nodup P (pn_abs d))]. apply Permutation_map. now apply Permutation_sym. }
    destruct (occurrences_ok P n ms asgs MK PL) as (occ & Eo & ON & OS). rewrite Eo. cbn [obind].
    assert (OB : forall c t k, In (c, t, k) occ -> c < n).
    { intros c t [a mi] H. apply OS in H as (m & asg & me & sub & Hc & _ & _ & H). apply (pl_at P n ms asgs PL) in Hc. destruct Hc as (_ & _ & _ & B & _). apply B. eapply nth_error_In; eauto. }
    assert (LP : forall p, In p (pn_prims d) -> is_prim P p = true) by (intros p Hp; apply is_prim_iff; now apply (to_prims P d TO)).
    destruct (inherit_ok P n occ (pn_prims d) NP (to_nodup P d TO) LP pick (PK occ)) as (chs & pos & Ei & Lp & IO & NE).
    replace (Nat.eqb n 0) with false by (symmetry; apply Nat.eqb_neq; lia). rewrite Ei. cbn [obind].
    eexists _, chs. split; [reflexivity|].
    match goal with |- _ /\ node_ok P ?x _ /\ _ => set (d' := x) end.
    assert (FP : forall a m c k, find_ptr d' a m c = Some k <-> c < n /\ exists t, nth_error (tasks_of P occ c (cp_prim k)) (cp_task k) = Some t /\ nth_error (child_causes occ c t) (cp_cause k) = Some (a, m)).
    { intros a m c k. rewrite (find_ptr_iff P d' n occ a m c k eq_refl ON). apply ptr_in. }
    assert (CHI : forall c, c < n -> exists u, nth_error chs c = Some u). { intros c Lc. apply get_some. now rewrite (ih_len _ _ _ _ _ _ _ IO). }
    assert (CHL : forall c u, nth_error chs c = Some u -> c < n). { intros c u E. rewrite <- (ih_len _ _ _ _ _ _ _ IO). apply nth_error_Some. congruence. }
    (* causes that come from methods *)
    assert (CM : forall c u pr i t, nth_error chs c = Some u -> nth_error (tasks_of P occ c pr) i = Some t -> exists inh, nth_error (ccauses pr u) i = Some (causes_of occ c t ++ inh)).
    { intros c u pr i t Eu Ht. destruct (ih_ch _ _ _ _ _ _ _ IO c u Eu) as [A1 A2 A3 (ext & Ex & A4) A5 A6 A7]. destruct pr; cbn [ccauses] in *.
      - assert (Li : i < length (pn_cp u)). { rewrite A6, Ex, app_length. assert (i < length (tasks_of P occ c true)) by (apply nth_error_Some; congruence). cbn [tasks_of] in *. lia. }
        destruct (get_some _ _ Li) as (cs & Ecs). unfold get in Ecs. destruct (A7 i cs Ecs) as (inh & -> & _). unfold base in Ecs. cbn [tasks_of] in Ht. rewrite Ht in Ecs. exists inh. exact Ecs.
      - exists []. rewrite app_nil_r, A2. cbn [tasks_of] in Ht. now rewrite nth_error_map, Ht. }
    assert (CT : forall c u pr i t, nth_error chs c = Some u -> nth_error (tasks_of P occ c pr) i = Some t -> nth_error (ctasks pr u) i = Some t).
    { intros c u pr i t Eu Ht. destruct (ih_ch _ _ _ _ _ _ _ IO c u Eu) as [A1 A2 A3 (ext & Ex & A4) A5 A6 A7]. destruct pr; cbn [ctasks tasks_of] in *; [|now rewrite A1]. rewrite Ex, nth_error_app1; auto. apply nth_error_Some. congruence. }
    assert (MC : forall c u pr i cs j x, nth_error chs c = Some u -> nth_error (ccauses pr u) i = Some cs -> nth_error cs j = Some x ->
       (exists t a m, nth_error (tasks_of P occ c pr) i = Some t /\ nth_error (child_causes occ c t) j = Some (a, m) /\ x = (Some a, m)) \/ (pr = true /\ exists p, x = (None, p) /\ nth_error pos p = Some (c, i, j))).
    { intros c u pr i cs j x Eu Ec Ex. destruct (ih_ch _ _ _ _ _ _ _ IO c u Eu) as [A1 A2 A3 A4 A5 A6 A7].
      assert (B : forall t, nth_error (causes_of occ c t) j = Some x -> exists a m, nth_error (child_causes occ c t) j = Some (a, m) /\ x = (Some a, m)).
      { intros t H. unfold causes_of in H. rewrite nth_error_map in H. destruct (nth_error (child_causes occ c t) j) as [[a m]|]; [|discriminate]. injection H as <-. eauto. }
      destruct pr; cbn [ccauses] in Ec.
      - destruct (A7 i cs Ec) as (inh & -> & HI). unfold base in *. cbn [tasks_of]. destruct (lt_dec j (length (base P occ c i))) as [Lj|Lj]; unfold base in Lj.
        + rewrite nth_error_app1 in Ex by auto. destruct (nth_error (child_prims P occ c) i) as [t|] eqn:Et; [|destruct j; discriminate]. left. destruct (B t Ex) as (a & m & B1 & B2). exists t, a, m. auto.
        + rewrite nth_error_app2 in Ex by lia. right. split; auto. destruct (HI _ _ Ex) as (p & -> & Hp). exists p. split; auto. rewrite Hp. repeat f_equal. lia.
      - rewrite A2, nth_error_map in Ec. cbn [tasks_of]. destruct (nth_error (child_abs P occ c) i) as [t|] eqn:Et; [|discriminate]. injection Ec as <-. left. destruct (B t Ex) as (a & m & B1 & B2). exists t, a, m. auto. }
    split; [intros ->; assert (Z := ih_len _ _ _ _ _ _ _ IO); cbn in Z; lia|]. split; [constructor|].
    - intros u pr Hu. apply In_nth_error in Hu as (c & Hu). destruct (ih_ch _ _ _ _ _ _ _ IO c u Hu) as [A1 A2 A3 A4 A5 A6 A7]. destruct pr; cbn; auto. rewrite A2, A1. apply map_length.
    - exact Lp.
    - intros p c i j E. exact (ih_pos _ _ _ _ _ _ _ IO p c i j E).
    - intros a m c k E. apply FP in E as (Lc & t & T1 & T2). destruct (CHI c Lc) as (u & Eu). destruct (CM c u _ _ t Eu T1) as (inh & Ecs). exists u, (causes_of occ c t ++ inh). split; auto. split; auto.
      rewrite nth_error_app1 by (rewrite causes_of_length; apply nth_error_Some; congruence). unfold causes_of. rewrite nth_error_map, T2. reflexivity.
    - intros c u pr i cs j x Eu Ec Ex. destruct (MC c u pr i cs j x Eu Ec Ex) as [(t & a & m & T1 & T2 & ->)|(-> & p & -> & Hp)]; [|auto]. split.
      + apply FP. cbn. split; eauto.
      + assert (I : In (c, t, (a, m)) occ) by (apply child_causes_in; eapply nth_error_In; eauto). apply OS in I as (mm & asg & me & sub & I & _). assert (I' : In (mm, a, m) ms) by (apply in_combine_l in I; auto).
        apply MI in I' as (t' & E1 & E2). exists t'. split; auto. unfold nmeth. apply nth_error_Some. congruence.
    - intros u pr cs Hu Hc. apply In_nth_error in Hu as (c & Hu). apply In_nth_error in Hc as (i & Hc). destruct pr; cbn in Hc; [apply (NE c u i cs Hu Hc); discriminate|].
      destruct (ih_ch _ _ _ _ _ _ _ IO c u Hu) as [A1 A2 A3 A4 A5 A6 A7]. rewrite A2, nth_error_map in Hc. destruct (nth_error (child_abs P occ c) i) as [t|] eqn:Et; [|discriminate]. injection Hc as <-.
      assert (I : In t (tasks_of P occ c false)) by (eapply nth_error_In; exact Et). apply tasks_of_in in I as (_ & k & I). apply child_causes_in in I. intros Q. assert (Z := causes_of_length occ c t). rewrite Q in Z. destruct (child_causes occ c t); [destruct I|discriminate].
    - intros a t m mi Ea Em. change (pn_abs d') with (pn_abs d) in Ea. assert (IM : In (mi, a, m) ms) by (apply MI; eauto). apply In_nth_error in IM as (x & Hx).
      assert (Hx' : nth_error (map (fun '(m, _, _) => m) ms) x = Some mi) by (rewrite nth_error_map, Hx; reflexivity). destruct (forall2_nth_l _ _ _ _ _ PL Hx') as (asg & Ha & PLC).
      assert (IC : In ((mi, a, m), asg) (combine ms asgs)) by (apply combine_in; eauto).
      destruct PLC as (me & Eme & La & B & ND). destruct (KD mi a m asg me IC Eme) as (o & TS & KO & PLO). exists me, o, (map (fun j => nth j asg 0) o). split; auto.
      assert (TM : m_task me = t). { apply nth_error_In in Em. apply methods_in in Em as (me' & E' & Et). congruence. }
      split; auto. rewrite (ih_len _ _ _ _ _ _ _ IO). split; [exact KO|]. split; auto.
      assert (UQ : forall mi' asg', In ((mi', a, m), asg') (combine ms asgs) -> mi' = mi /\ asg' = asg).
      { intros mi' asg' I. apply combine_in in I as (y & Y1 & Y2). assert (y = x). { apply (nodup_nth (map key ms) y x (a, m) MK); rewrite nth_error_map; [rewrite Y1|rewrite Hx]; reflexivity. } subst y. split; congruence. }
      split.
      + assert (G : forall l, incl l o -> Forall2 (fun j c => exists u k x0, nth_error chs c = Some u /\ find_ptr d' a m c = Some k /\ nth_error (m_subs me) j = Some x0 /\ nth_error (ctasks (cp_prim k) u) (cp_task k) = Some x0) l (map (fun j => nth j asg 0) l)); [|apply G, incl_refl].
        induction l as [|j l IH]; intros IN; constructor; [|apply IH; intros z Hz; apply IN; now right].
        assert (Lj : j < length (m_subs me)) by (apply TS; apply IN; now left). destruct (get_some _ _ Lj) as (tk & Et). unfold get in Et.
        assert (I : In (nth j asg 0, tk, (a, m)) occ). { apply OS. exists mi, asg, me, j. repeat split; auto. apply nth_error_nth'. lia. }
        assert (IT : In tk (tasks_of P occ (nth j asg 0) (is_prim P tk))) by (apply tasks_of_in; split; auto; eauto). apply In_nth_error in IT as (ti & Hti). assert (IK := I). apply child_causes_in in IK. apply In_nth_error in IK as (ci & Hci).
        destruct (CHI _ (OB _ _ _ I)) as (u & Eu). exists u, {| cp_prim := is_prim P tk; cp_task := ti; cp_cause := ci |}, tk. split; auto. split; [apply FP; cbn; split; [exact (OB _ _ _ I)|eauto]|]. split; auto. cbn. now apply (CT (nth j asg 0)).
      + intros c k E. apply FP in E as (Lc & t' & T1 & T2). assert (I : In (c, t', (a, m)) occ) by (apply child_causes_in; eapply nth_error_In; eauto). apply OS in I as (mi' & asg' & me' & sub & I & Em' & Es' & Ea'). apply UQ in I as [-> ->].
        apply in_map_iff. exists sub. split; [now apply nth_error_nth|]. apply TS. rewrite <- La. apply nth_error_Some. congruence.
    - do 9 (split; [reflexivity|]). split.
      + apply Forall_forall. intros u Hu. apply In_nth_error in Hu as (c & Hu). destruct (ih_ch _ _ _ _ _ _ _ IO c u Hu) as [A1 A2 A3 (ext & Ex & A4) A5 A6 A7]. constructor; auto.
        * intros p Hp. apply is_prim_iff. rewrite Ex in Hp. apply in_app_or in Hp as [Hp|Hp]; [now apply filter_In in Hp|]. destruct (A4 p Hp) as (i & _ & E). apply LP. eapply nth_error_In; eauto.
        * intros t Ht. rewrite A1 in Ht. assert (I : In t (tasks_of P occ c false)) by exact Ht. apply tasks_of_in in I as (NPt & [a mi] & I). apply OS in I as (m & asg & me & sub & _ & Em & Es' & _).
          assert (Lt := wfm_subs _ _ (wf_methods _ WF me (nth_error_In _ _ Em)) t (nth_error_In _ _ Es')). destruct (nth_error (p_prim P) t) as [[|]|] eqn:Ep; auto; [|apply nth_error_None in Ep; lia].
          exfalso. assert (Q : is_prim P t = true) by (now apply is_prim_iff). congruence.
      + apply Forall_forall. intros u Hu. apply In_nth_error in Hu as (c & Hu). apply (ih_ch _ _ _ _ _ _ _ IO c u Hu).
  Qed.
  Lemma expand_with_ok d ms n asgs : tasks_ok P d -> Permutation ms (gather P (pn_abs d)) -> Forall2 (fits P n) (map (fun '(m, _, _) => m) ms) asgs -> 0 < n ->
    (forall m a mi asg me, In ((m, a, mi), asg) (combine ms asgs) -> nth_error (p_methods P) m = Some me -> exists o, (forall j, In j o <-> j < length (m_subs me)) /\
       kd (pn_abs d) me o n (map (fun j => nth j asg 0) o) /\ placement n o (map (fun j => nth j asg 0) o)) ->
    exists d' us, expand_with P d ms n asgs = Some (d', map (fun u => PNode u []) us) /\ expanded d d' us.
  Proof. intros TO PM PL NP KD. apply expand_pick_ok; auto. intros occ p. exists 0. auto. Qed.

  (** Nodes without tasks below do not occur: the first method has a subtask. *)
  Lemma gather_first d ms m a mi : pn_abs d <> [] -> Permutation ms (gather P (pn_abs d)) -> hd_error ms = Some (m, a, mi) -> exists me, nth_error (p_methods P) m = Some me /\ 0 < length (m_subs me).
  Proof.
    intros NA PM HD. destruct ms as [|x r]; [discriminate|]. injection HD as ->. assert (I : In (m, a, mi) (gather P (pn_abs d))) by (eapply Permutation_in; [exact PM|now left]).
    apply gather_in in I as (t & _ & I). apply nth_error_In in I. apply methods_in in I as (me & E & _). exists me. split; auto. assert (W := wfm_nonempty _ _ (wf_methods _ WF me (nth_error_In _ _ E))). destruct (m_subs me); [congruence|cbn; lia].
  Qed.
  Lemma gather_some d : tasks_ok P d -> pn_abs d <> [] -> (forall t, nth_error (p_prim P) t = Some false -> exists me, In me (p_methods P) /\ m_task me = t) -> gather P (pn_abs d) <> [].
  Proof.
    intros TO NA CV. destruct (pn_abs d) as [|t0 ar] eqn:Ea; [congruence|]. assert (T0 : nth_error (p_prim P) t0 = Some false) by (apply (to_abs P d TO); rewrite Ea; now left).
    destruct (CV t0 T0) as (me & Hm & E). apply In_nth_error in Hm as (m & Hm). assert (I : In m (methods_of P t0)) by (apply methods_in; eauto). apply In_nth_error in I as (mi & I).
    intros Q. assert (IG : In (m, 0, mi) (gather P (t0 :: ar))) by (apply gather_in; exists t0; auto). rewrite Q in IG. destruct IG.
  Qed.
End Expand.

Section ExpandNode.
  Existing Instance to_kind.
  Variables (P : problem) (C : sconf).
  Hypothesis WF : wf_problem P.
  Hypothesis CO : conf_ok P C.

  Lemma sorted_head (l : list (nat * nat * nat)) x y : hd_error l = Some x -> In y l -> StronglySorted (fun x y => subs_len P (fst (fst y)) <= subs_len P (fst (fst x))) l -> subs_len P (fst (fst y)) <= subs_len P (fst (fst x)).
  Proof. destruct l as [|z r]; [discriminate|]. cbn. intros [= ->] [->|H] S; auto. inversion S as [|? ? _ F]; subst. rewrite Forall_forall in F. auto. Qed.

  Lemma expand_node_ok d : tasks_ok P d -> pn_abs d <> [] -> exists d' us, expand_node P C d = Some (d', map (fun u => PNode u []) us) /\ expanded P d d' us.
  Proof.
    intros TO NA. unfold expand_node. set (ms := s_sort C (gather P (pn_abs d))). destruct (ok_sort P C CO (gather P (pn_abs d))) as [PM SO]. fold ms in PM, SO.
    assert (MI : forall m a mi, In (m, a, mi) ms <-> exists t, nth_error (pn_abs d) a = Some t /\ nth_error (methods_of P t) mi = Some m).
    { intros m a mi. rewrite <- gather_in. split; apply Permutation_in; auto. now apply Permutation_sym. }
    assert (MK : NoDup (map key ms)). { eapply Permutation_NoDup; [|apply (gather_nodup P (pn_abs d))]. apply Permutation_map. now apply Permutation_sym. }
    assert (MM : forall m a mi, In (m, a, mi) ms -> exists me, nth_error (p_methods P) m = Some me /\ In me (p_methods P)).
    { intros m a mi H. apply MI in H as (t & _ & H). apply nth_error_In in H. apply methods_in in H as (me & E & _). exists me. split; auto. eapply nth_error_In; eauto. }
    destruct (to_sog_ok P (s_mto C) (map (fun '(m, _, _) => m) ms)) as (n & asgs & Es & PL & En).
    { intros m Hm. apply in_map_iff in Hm as ([[m' a] mi] & E & Hm). subst m'. destruct (MM m a mi Hm) as (me & Em & Im). destruct (ok_mto P C CO m me Em) as (o & Eo & (T1 & T2 & T3)). exists me, o. repeat split; auto.
      - apply T2.
      - apply T2.
      - apply (ok_small P C CO me Im).
      - intros m0 me0 H0 E0. destruct ms as [|[[m1 a1] mi1] r] eqn:Ems; [discriminate|]. cbn in H0. injection H0 as ->.
        assert (Q := sorted_head ((m0, a1, mi1) :: r) (m0, a1, mi1) (m, a, mi) eq_refl Hm SO). cbn in Q. unfold subs_len in Q. unfold get in E0. rewrite Em, E0 in Q. exact Q. }
    rewrite Es. cbn [obind].
    assert (PF : Forall2 (fits P n) (map (fun '(m, _, _) => m) ms) asgs) by (clear -PL CO; induction PL; constructor; auto; eapply placed_fits; eauto).
    apply expand_with_ok; auto.
    - destruct ms as [|[[m a] mi] r] eqn:Ems; [exfalso; apply (gather_some P d TO NA (ok_covered _ _ CO)); now apply Permutation_nil|].
      destruct (gather_first P WF d ((m, a, mi) :: r) m a mi NA PM eq_refl) as (me & Eme & L). rewrite (En me Eme). exact L.
    - intros m a mi asg me I Eme. apply combine_in in I as (x & Hx & Ha). assert (Hx' : nth_error (map (fun '(m, _, _) => m) ms) x = Some m) by (rewrite nth_error_map, Hx; reflexivity).
      assert (PLC := forall2_nth _ _ _ _ _ _ PL Hx' Ha). destruct (placed_inj P C CO n m asg PLC) as (me' & o & Eme' & TS & _ & PLO & _). assert (me' = me) by congruence. subst me'. exists o. split; [apply TS|]. split; [exact TS|exact PLO].
  Qed.
End ExpandNode.


Definition core (d : pnode) := (pn_prims d, pn_abs d, pn_cp d, pn_ca d).
Lemma core_eq d d' : core d = core d' -> pn_prims d = pn_prims d' /\ pn_abs d = pn_abs d' /\ pn_cp d = pn_cp d' /\ pn_ca d = pn_ca d'.
Proof. unfold core. intros E. injection E as -> -> -> ->. auto. Qed.
Lemma node_ok_ext {KI : kind} P d d' us us' : core d = core d' -> pn_ptr d = pn_ptr d' -> pn_pos d = pn_pos d' -> map core us = map core us' -> node_ok P d us -> node_ok P d' us'.
Proof.
  intros Ec Ep Eo Eu [N1 N2 N3 N4 N5 N6 N7]. destruct (core_eq _ _ Ec) as (E1 & E2 & E3 & E4).
  assert (FP : forall a m c, find_ptr d' a m c = find_ptr d a m c) by (intros; unfold find_ptr; now rewrite Ep).
  assert (UL : length us = length us') by (rewrite <- (map_length core us), Eu, map_length; auto).
  assert (UU : forall c u', nth_error us' c = Some u' -> exists u, nth_error us c = Some u /\ forall pr, ctasks pr u = ctasks pr u' /\ ccauses pr u = ccauses pr u').
  { intros c u' H. assert (Q : nth_error (map core us') c = Some (core u')) by (rewrite nth_error_map, H; reflexivity). rewrite <- Eu, nth_error_map in Q. destruct (nth_error us c) as [u|]; [|discriminate]. injection Q as Q1 Q2 Q3 Q4.
    exists u. split; auto. intros []; cbn; auto. }
  assert (UV : forall c u, nth_error us c = Some u -> exists u', nth_error us' c = Some u' /\ forall pr, ctasks pr u = ctasks pr u' /\ ccauses pr u = ccauses pr u').
  { intros c u H. assert (L : c < length us') by (rewrite <- UL; apply nth_error_Some; congruence). apply get_some in L as (u' & H'). unfold get in H'. destruct (UU c u' H') as (u0 & H0 & Q). exists u'. split; auto. assert (u0 = u) by congruence. now subst u0. }
  assert (UI : forall u', In u' us' -> exists u, In u us /\ forall pr, ctasks pr u = ctasks pr u' /\ ccauses pr u = ccauses pr u').
  { intros u' H. apply In_nth_error in H as (c & H). destruct (UU c u' H) as (u & Hu & Q). exists u. split; auto. eapply nth_error_In; eauto. }
  constructor.
  - intros u' pr H. destruct (UI u' H) as (u & Hu & Q). destruct (Q pr) as [<- <-]. auto.
  - now rewrite <- Eo, <- E1.
  - intros p c i j H. rewrite <- Eo in H. destruct (N3 p c i j H) as (u & cs & H1 & H2 & H3 & H4). destruct (UV c u H1) as (u' & H' & Q). exists u', cs. rewrite <- E1. destruct (Q true) as [Q1 Q2]. cbn in Q1, Q2. rewrite <- Q1, <- Q2. auto.
  - intros a m c k H. rewrite FP in H. destruct (N4 a m c k H) as (u & cs & H1 & H2 & H3). destruct (UV c u H1) as (u' & H' & Q). exists u', cs. destruct (Q (cp_prim k)) as [Q1 Q2]. rewrite <- Q2. auto.
  - intros c u' pr i cs j x H1 H2 H3. destruct (UU c u' H1) as (u & Hu & Q). destruct (Q pr) as [Q1 Q2]. rewrite <- Q2 in H2. specialize (N5 c u pr i cs j x Hu H2 H3). rewrite <- Eo, <- E2. destruct x as [[a|] m]; auto. now rewrite FP.
  - intros u' pr cs Hu Hc. destruct (UI u' Hu) as (u & Hu' & Q). destruct (Q pr) as [Q1 Q2]. rewrite <- Q2 in Hc. eapply N6; eauto.
  - intros a t m mi Ha Hm. rewrite <- E2 in Ha. destruct (N7 a t m mi Ha Hm) as (me & o & vs & H1 & H2 & H3 & H4 & H5 & H6). exists me, o, vs. rewrite <- UL, <- E2. do 4 (split; [auto|]). split; [|intros c k Hk; rewrite FP in Hk; eauto].
    clear -H5 UV FP. induction H5 as [|j c o vs (u & k & x & X1 & X2 & X3 & X4) F IH]; constructor; auto. destruct (UV c u X1) as (u' & X1' & Q). destruct (Q (cp_prim k)) as [Q1 Q2]. exists u', k, x. rewrite FP, <- Q1. auto.
Qed.
Lemma tasks_ok_ext P d d' : core d = core d' -> tasks_ok P d -> tasks_ok P d'.
Proof. intros E [T1 T2 T3]. destruct (core_eq _ _ E) as (E1 & E2 & _). constructor; rewrite <- ?E1, <- ?E2; auto. Qed.

Section ExpandTo.
  Context {KI : kind}.
  Variables (P : problem) (xp : pnode -> option (pnode * list pdt)).
  Hypothesis XP : forall d, tasks_ok P d -> pn_abs d <> [] -> exists d' us, xp d = Some (d', map (fun u => PNode u []) us) /\ expanded P d d' us.

  Lemma blank_leaf u : tasks_ok P u -> blank u -> tree_ok P (PNode u []) /\ tall vcond (PNode u []) /\ tvars (PNode u []) = [] /\ task_vars u = [].
  Proof.
    intros T (B1 & B2 & B3 & B4 & B5 & B6 & B7). split; [apply tree_ok_node; rewrite B1; auto|]. assert (TV : task_vars u = []) by (unfold task_vars; rewrite B5, B6; reflexivity). split; [apply tall_node; split; auto|].
    - unfold vcond. rewrite B4. split; auto. intros _ x [].
    - cbn [tvars flat_map]. unfold own_vars. rewrite B4, TV. auto.
  Qed.
  Definition top (d : pnode) := (core d, pn_none d, pn_pvar d, pn_avar d).
  Lemma expand_upto_ok K : forall t, tree_ok P t -> tall vcond t -> exists t', expand_upto xp K t = Some t' /\ tree_ok P t' /\ tall vcond t' /\ deep K t' /\ tvars t' = tvars t /\ top (dat t') = top (dat t).
  Proof.
    induction K as [|K IH]; intros [d ch] TO TV; [exists (PNode d ch); cbn [expand_upto deep]; auto 10|].
    cbn [expand_upto].
    assert (ST : exists d' ch', (if pn_exp d then Some (d, ch) else match pn_abs d with [] => Some (d, ch) | _ :: _ => xp d end) = Some (d', ch') /\ tree_ok P (PNode d' ch') /\ tall vcond (PNode d' ch') /\
       (pn_exp d' = true \/ pn_abs d' = []) /\ tvars (PNode d' ch') = tvars (PNode d ch) /\ top d' = top d).
    { destruct (pn_exp d) eqn:Ee; [exists d, ch; auto 10|]. destruct (pn_abs d) as [|a0 ar] eqn:Ea; [exists d, ch; auto 10|].
      assert (TO' := TO). apply tree_ok_node in TO'. rewrite Ee in TO'. destruct TO' as (T1 & -> & _). apply tall_node in TV as [[V1 V2] _].
      destruct (XP d T1) as (d' & us & E1 & E2 & E3 & E4 & E5 & E6 & E7 & E8 & E9 & E10 & E11 & E12 & E13 & E14); [congruence|].
      exists d', (map (fun u => PNode u []) us). assert (EC : core d' = core d) by (unfold core; congruence).
      assert (BL : forall u, In u us -> tree_ok P (PNode u []) /\ tall vcond (PNode u []) /\ tvars (PNode u []) = [] /\ task_vars u = []). { intros u Hu. rewrite Forall_forall in E13, E14. apply blank_leaf; auto. }
      assert (TVE : task_vars d' = task_vars d) by (unfold task_vars; rewrite E10, E11; reflexivity).
      split; auto. split; [|split; [|split; [auto|split]]].
      - apply tree_ok_node. rewrite E8. split; [eapply tasks_ok_ext; [symmetry; exact EC|auto]|]. split.
        + split; [destruct us; [congruence|discriminate]|]. rewrite map_map. cbn. rewrite map_id. auto.
        + apply Forall_forall. intros x Hx. apply in_map_iff in Hx as (u & <- & Hu). apply (BL u Hu).
      - apply tall_node. split.
        + unfold vcond. rewrite E9, E10, E11, E4, E5. split; auto. intros _ x Hx. apply in_map_iff in Hx as (u & <- & Hu). apply (BL u Hu).
        + apply Forall_forall. intros x Hx. apply in_map_iff in Hx as (u & <- & Hu). apply (BL u Hu).
      - cbn [tvars flat_map]. rewrite app_nil_r. unfold own_vars. rewrite E9, TVE. assert (Z : flat_map tvars (map (fun u => PNode u []) us) = []); [|rewrite Z, app_nil_r; auto].
        clear -BL. induction us as [|u us IH]; auto. cbn [map flat_map]. rewrite IH by (intros x Hx; apply BL; now right). destruct (BL u (or_introl eq_refl)) as (_ & _ & E & _). now rewrite E.
      - unfold top. rewrite EC, E9, E10, E11. reflexivity. }
    destruct ST as (d' & ch' & -> & TO' & TV' & DE & EV & ET). cbn [obind]. apply tree_ok_node in TO' as (T1 & T2 & T3). apply tall_node in TV' as [[V1 V2] V3]. rewrite Forall_forall in T3, V3.
    assert (CH : exists ch2, omap (expand_upto xp K) ch' = Some ch2 /\ Forall (tree_ok P) ch2 /\ Forall (tall vcond) ch2 /\ Forall (deep K) ch2 /\ flat_map tvars ch2 = flat_map tvars ch' /\ map (fun u => top (dat u)) ch2 = map (fun u => top (dat u)) ch').
    { clear T2 V2 EV. induction ch' as [|u r IHr]; [exists []; cbn; auto 10|]. destruct (IH u) as (u' & E1 & E2 & E3 & E4 & E5 & E6); [apply T3; now left|apply V3; now left|].
      destruct IHr as (r' & F1 & F2 & F3 & F4 & F5 & F6); [intros x Hx; apply T3; now right|intros x Hx; apply V3; now right|]. exists (u' :: r'). cbn [omap]. rewrite E1. cbn [obind]. rewrite F1. cbn [obind flat_map map]. rewrite E5, E6, F5, F6. auto 10. }
    destruct CH as (ch2 & -> & C1 & C2 & C3 & C4 & C5). cbn [obind]. exists (PNode d' ch2). split; auto.
    assert (TOPC : map core (map dat ch') = map core (map dat ch2)).
    { assert (Q := f_equal (map (fun x => fst (fst (fst x)))) C5). rewrite !map_map in Q. cbn in Q. rewrite !map_map. auto. }
    assert (NIL : ch2 = [] <-> ch' = []). { assert (Q := f_equal (@length _) C5). rewrite !map_length in Q. destruct ch2, ch'; cbn in Q; try discriminate; split; auto; discriminate. }
    split; [|split; [|split; [|split]]]; auto.
    - apply tree_ok_node. split; auto. split; auto. destruct (pn_exp d').
      + split; [rewrite NIL; apply T2|]. eapply node_ok_ext; [| | |exact TOPC|apply T2]; auto.
      + now apply NIL.
    - apply tall_node. split; auto. split; auto. intros E u Hu. specialize (V2 E).
      assert (Q : In (top (dat u)) (map (fun u => top (dat u)) ch')) by (rewrite <- C5; apply in_map_iff; eauto). apply in_map_iff in Q as (u' & Eu & Hu'). specialize (V2 u' Hu'). unfold top in Eu. injection Eu as _ _ _ _ _ E5 E6. unfold task_vars in *. congruence.
    - cbn [deep dat kids]. auto.
    - cbn [tvars]. rewrite C4. exact EV.
  Qed.
End ExpandTo.
Lemma expand_to_ok P C : wf_problem P -> conf_ok P C -> forall K t, tree_ok (KI := to_kind) P t -> tall vcond t -> exists t', expand_to P C K t = Some t' /\ tree_ok (KI := to_kind) P t' /\ tall vcond t' /\ deep K t' /\ tvars t' = tvars t /\ top (dat t') = top (dat t).
Proof. intros WF CO. exact (expand_upto_ok (KI := to_kind) P (expand_node P C) (expand_node_ok P C WF CO)). Qed.
