(** The hierarchical plan printed by planToHddl: the stack machine of the plans, the printed rows, and their tree. *)
From Coq Require Import List Arith Lia Relations Bool.
Import ListNotations.
From Verif Require Import Base Htn_problem Htn_spec To_spec Tree_spec Sas_model Sas_spec Hddl_model.

Definition head (n : oname) : nat := match n with NPrim _ j | NMeth _ j _ _ => j end.
Definition meth (n : oname) : nat := match n with NPrim _ _ => 0 | NMeth _ _ _ _ => 1 end.
Definition nmeth (ls : list oname) : nat := list_sum (map meth ls).
Definition width (n : oname) : nat := match n with NPrim _ _ => 1 | NMeth _ _ _ l => length l end.

Lemma printed_cons n ls : printed (n :: ls) = printed [n] ++ printed ls.
Proof. unfold printed. cbn. now rewrite app_nil_r. Qed.
Lemma printed_width n : length (printed [n]) = width n.
Proof. destruct n; unfold printed; cbn; auto. now rewrite app_nil_r. Qed.
Lemma printed_app l1 l2 : printed (l1 ++ l2) = printed l1 ++ printed l2.
Proof. unfold printed. now rewrite map_app, concat_app. Qed.
Lemma nmeth_app l1 l2 : nmeth (l1 ++ l2) = nmeth l1 + nmeth l2.
Proof. unfold nmeth. now rewrite map_app, list_sum_app. Qed.

Section Lines.
  Variable P : problem.

  Inductive ok : oname -> nat -> list nat -> Prop :=
  | ok_prim i j : primitive P i -> ok (NPrim i j) i []
  | ok_meth i j subs prims m rest : nth_error (p_methods P) i = Some m -> m_subs m = prims ++ rest -> (forall t, In t prims -> primitive P t) ->
      reorder (p_prim P) m = Some (rev (m_subs m), length prims) -> subs = (if length rest =? 0 then [] else map (fun k => j + k) (seq 0 (length rest))) ->
      ok (NMeth i j subs prims) (m_task m) rest.

  (** The plans as runs of a stack machine that ends with an empty stack. *)
  Inductive srun : list nat -> list oname -> Prop :=
  | s_nil : srun [] []
  | s_cons n t rest k0 r : ok n t rest -> head n = length k0 -> srun (rest ++ k0) r -> srun (t :: k0) (n :: r).

  (** The cell at position [p] stays until the first line with this head. *)
  Lemma cell k ls : srun k ls -> forall p, p < length k -> exists l1 x l2 rest, ls = l1 ++ x :: l2 /\ Forall (fun y => p < head y) l1 /\ head x = p /\ ok x (nth (length k - 1 - p) k 0) rest.
  Proof.
    induction 1 as [|n t rest k0 r O H R IH]; intros p L; [cbn in L; lia|]. cbn [length] in L. destruct (Nat.eq_dec p (length k0)) as [->|N].
    - exists [], n, r, rest. split; [reflexivity|]. split; auto. split; auto. cbn [length]. replace (S (length k0) - 1 - length k0) with 0 by lia. exact O.
    - destruct (IH p) as (l1 & x & l2 & rs & -> & F & Hx & Ox); [rewrite app_length; lia|]. exists (n :: l1), x, l2, rs. split; [reflexivity|]. split; [constructor; auto; lia|]. split; auto.
      rewrite app_length, app_nth2 in Ox by lia. replace (length rest + length k0 - 1 - p - length rest) with (length k0 - 1 - p) in Ox by lia. cbn [length]. replace (S (length k0) - 1 - p) with (S (length k0 - 1 - p)) by lia. exact Ox.
  Qed.

  (** Every line removes a cell of the initial stack or one pushed by an earlier line. *)
  Lemma origin k ls : srun k ls -> forall q n, nth_error ls q = Some n ->
    (head n < length k /\ forall q' y, q' < q -> nth_error ls q' = Some y -> head n < head y) \/
    (exists o y t rest, o < q /\ nth_error ls o = Some y /\ ok y t rest /\ head y <= head n < head y + length rest /\ forall q' z, o < q' < q -> nth_error ls q' = Some z -> head n < head z).
  Proof.
    induction 1 as [|n0 t rest k0 r O H R IH]; intros q n E; [destruct q; discriminate|]. destruct q as [|q]; cbn [nth_error] in E.
    - injection E as <-. left. cbn [length]. split; [lia|]. intros q' y L. lia.
    - destruct (IH q n E) as [[A B]|(o & y & t' & rs & L & Eo & Oy & D & F)].
      + rewrite app_length in A. destruct (le_lt_dec (length k0) (head n)) as [C|C].
        * right. exists 0, n0, t, rest. split; [lia|]. split; [reflexivity|]. split; auto. split; [lia|]. intros [|q'] z L Ez; [lia|]. cbn in Ez. apply (B q'); auto. lia.
        * left. cbn [length]. split; [lia|]. intros [|q'] y L Ey; cbn in Ey; [injection Ey as <-; lia|]. apply (B q'); auto. lia.
      + right. exists (S o), y, t', rs. split; [lia|]. split; auto. split; auto. split; auto. intros [|q'] z Lz Ez; [lia|]. cbn in Ez. apply (F q'); auto. lia.
  Qed.

  Lemma srun_skip k ls : srun k ls -> forall o n, nth_error ls o = Some n -> exists t rest k0, ok n t rest /\ head n = length k0 /\ srun (rest ++ k0) (skipn (S o) ls).
  Proof.
    induction 1 as [|n0 t rest k0 r O H R IH]; intros o n E; [destruct o; discriminate|]. destruct o as [|o]; cbn [nth_error] in E; [injection E as <-; exists t, rest, k0; auto|]. apply (IH o n E).
  Qed.
  Lemma srun_ok k ls : srun k ls -> Forall (fun n => exists t rest, ok n t rest) ls.
  Proof. induction 1; constructor; eauto. Qed.

  Lemma ok_fun n t r t' r' : ok n t r -> ok n t' r' -> t = t' /\ r = r'.
  Proof.
    intros O O'. destruct O as [i j Q|i j subs prims m rest E Es PR RO SB]; inversion O' as [|? ? ? ? m' rest' E' Es' PR' RO' SB']; subst; auto. rewrite E in E'. injection E' as <-. split; auto. rewrite Es in Es'. now apply app_inv_head in Es'.
  Qed.

  Variable ro : list (list nat * nat).
  Hypothesis RO : omap (reorder (p_prim P)) (p_methods P) = Some ro.

  Lemma ro_get i m : nth_error (p_methods P) i = Some m -> exists s f, reorder (p_prim P) m = Some (s, f) /\ get ro i = Some (s, f).
  Proof.
    clear - RO. revert ro RO i. induction (p_methods P) as [|m0 l IH]; intros ro RO i E; [destruct i; discriminate|]. cbn [omap] in RO. apply obind_some in RO as ([s f] & E1 & RO). apply obind_some in RO as (ro' & E2 & RO). injection RO as <-.
    destruct i as [|i]; cbn in E; [injection E as <-; exists s, f; auto|]. destruct (IH ro' E2 i E) as (s' & f' & A & B). exists s', f'. auto.
  Qed.

  Notation okl := (Forall (fun n => exists t rest, ok n t rest)).

  Lemma prim_max_ok ls : okl ls -> prim_max ro ls = Some (length (printed ls)).
  Proof.
    induction 1 as [|n ls (t & rest & O) F IH]; [reflexivity|]. rewrite printed_cons, app_length, printed_width. destruct O as [i j Q|i j subs prims m rest E Es PR RR SB]; cbn [prim_max width].
    - rewrite IH. reflexivity.
    - destruct (ro_get i m E) as (s & f & A & B). rewrite RR in A. injection A as <- <-. destruct prims as [|p0 prims]; [cbn; exact IH|]. rewrite B, IH. reflexivity.
  Qed.

  Fixpoint lines (pn mn : nat) (ls : list oname) : list pline :=
    match ls with
    | [] => []
    | NPrim i h :: r => LPrim pn i h :: lines (S pn) mn r
    | NMeth i h subs prims :: r =>
        LMeth mn i h (match prims with [] => None | _ => Some (seq pn (length prims)) end)
          (match subs with [] => None | _ => Some (read_list subs (match nth_error (p_methods P) i with Some m => length (m_subs m) | None => 0 end)) end) :: lines (pn + length prims) (S mn) r
    end.

  Lemma read_all l : read_list l (length l) = l.
  Proof.
    unfold read_list. generalize (last l 0) as d. intros d. induction l as [|a l IH]; [reflexivity|]. cbn [length seq map nth]. f_equal. rewrite <- seq_shift, map_map. exact IH.
  Qed.
  Lemma combine_seq_app {A} (a b : list A) : forall p, combine (seq p (length a)) a ++ combine (seq (p + length a) (length b)) b = combine (seq p (length (a ++ b))) (a ++ b).
  Proof. induction a as [|x a IH]; intros p; cbn [length seq combine app]; [now rewrite Nat.add_0_r|]. rewrite <- IH. replace (p + S (length a)) with (S p + length a) by lia. reflexivity. Qed.

  Lemma pass_ok ls : okl ls -> forall pn mn, pass P ro pn mn ls = Some (combine (seq pn (length (printed ls))) (printed ls), lines pn mn ls).
  Proof.
    induction 1 as [|n ls (t & rest & O) F IH]; intros pn mn; [reflexivity|]. destruct O as [i j Q|i j subs prims m rest E Es PR RR SB].
    - cbn [pass lines]. rewrite IH. cbn [obind]. reflexivity.
    - destruct (ro_get i m E) as (s & f & A & B). rewrite RR in A. injection A as <- <-. cbn [pass lines]. unfold get at 1. rewrite E, B. cbn [obind].
      assert (Z : match prims with [] => 0 | _ :: _ => length prims end = length prims) by (destruct prims; reflexivity). rewrite Z, IH. cbn [obind]. rewrite read_all, combine_seq_app. rewrite printed_cons. assert (PR1 : printed [NMeth i j subs prims] = prims) by (unfold printed; cbn; apply app_nil_r). rewrite PR1. reflexivity.
  Qed.

  Variable pmax : nat.
  (** The number printed for line [x] after [pn] primitive tasks and [mn] methods. *)
  Definition num (pn mn : nat) (x : oname) : nat := match x with NPrim _ _ => pn | NMeth _ _ _ _ => mn + pmax end.

  Lemma find_ok ls x t rest p hs j l2 : head x = p -> ok x t rest -> get hs j = Some p -> okl ls -> Forall (fun y => p < head y) ls -> forall pn mn,
    find_sub P pmax t (Some hs) j (lines pn mn (ls ++ x :: l2)) = Some (Some (num (pn + length (printed ls)) (mn + nmeth ls) x)).
  Proof.
    intros Hx Ox Gh. induction ls as [|n ls IH]; intros F G pn mn.
    - cbn [app printed map concat length nmeth list_sum]. unfold nmeth. cbn. rewrite !Nat.add_0_r. destruct Ox as [i h Q|i h subs prims m rest E Es PR RR SB]; cbn [lines find_sub head] in *.
      + rewrite Nat.eqb_refl. cbn [obind]. rewrite Gh. cbn [obind]. subst h. now rewrite Nat.eqb_refl.
      + unfold get at 1. rewrite E. cbn [obind]. rewrite Nat.eqb_refl. rewrite Gh. cbn [obind]. subst h. now rewrite Nat.eqb_refl.
    - inversion F as [|? ? (t' & rest' & O) F']; subst. inversion G as [|? ? Hn G']; subst. rewrite printed_cons, app_length, printed_width. change (nmeth (n :: ls)) with (meth n + nmeth ls).
      destruct O as [i h Q|i h subs prims m r E Es PR RR SB]; cbn [app lines find_sub head width meth] in *.
      + change (0 + nmeth ls) with (nmeth ls). replace (pn + (1 + length (printed ls))) with (S pn + length (printed ls)) by lia. rewrite <- (IH F' G' (S pn) mn). cbn [obind]. rewrite Gh. cbn [obind]. destruct (i =? t); auto. destruct (Nat.eqb_spec h (head x)); [lia|]. reflexivity.
      + replace (pn + (length prims + length (printed ls))) with (pn + length prims + length (printed ls)) by lia. replace (mn + (1 + nmeth ls)) with (S mn + nmeth ls) by lia. rewrite <- (IH F' G' (pn + length prims) (S mn)). unfold get at 1. rewrite E. cbn [obind]. rewrite Gh. cbn [obind].
        destruct (t =? m_task m); auto. destruct (Nat.eqb_spec h (head x)); [lia|]. reflexivity.
  Qed.

  Definition lift (r : row) : hrow := {| hr_id := rw_id r; hr_task := rw_task r; hr_meth := rw_meth r; hr_kids := map Some (rw_kids r) |}.

  Definition posn (pn : nat) (ls : list oname) (q : nat) : nat := pn + length (printed (firstn q ls)).
  Definition idn (pn mn : nat) (ls : list oname) (q : nat) : nat :=
    match nth_error ls q with Some x => num (posn pn ls q) (mn + nmeth (firstn q ls)) x | None => 0 end.
  Definition kidline (ls : list oname) (o p c t : nat) : Prop := o < c /\ (exists y rest, nth_error ls c = Some y /\ head y = p /\ ok y t rest) /\ forall q z, o < q < c -> nth_error ls q = Some z -> p < head z.
  Definition rowat (pn mn : nat) (ls : list oname) (o : nat) (r : row) : Prop := exists i j subs prims m rest,
    nth_error ls o = Some (NMeth i j subs prims) /\ nth_error (p_methods P) i = Some m /\ m_subs m = prims ++ rest /\ ok (NMeth i j subs prims) (m_task m) rest /\
    rw_id r = idn pn mn ls o /\ rw_task r = m_task m /\ rw_meth r = i /\ length (rw_kids r) = length (m_subs m) /\
    (forall x, x < length prims -> nth_error (rw_kids r) x = Some (posn pn ls o + x)) /\
    (forall k, k < length rest -> exists c, kidline ls o (j + k) c (nth (length rest - 1 - k) rest 0) /\ nth_error (rw_kids r) (length prims + (length rest - 1 - k)) = Some (idn pn mn ls c)).

  Lemma posn_S pn n ls q : posn pn (n :: ls) (S q) = posn (pn + width n) ls q.
  Proof. unfold posn. cbn [firstn]. rewrite printed_cons, app_length, printed_width. lia. Qed.
  Lemma idn_S pn mn n ls q : idn pn mn (n :: ls) (S q) = idn (pn + width n) (mn + meth n) ls q.
  Proof. unfold idn. cbn [nth_error]. destruct (nth_error ls q); auto. rewrite posn_S. f_equal. cbn [firstn]. change (nmeth (n :: firstn q ls)) with (meth n + nmeth (firstn q ls)). lia. Qed.
  Lemma kidline_S n ls o p c t : kidline ls o p c t -> kidline (n :: ls) (S o) p (S c) t.
  Proof. intros (A & B & C). split; [lia|]. split; auto. intros [|q] z L E; [lia|]. apply (C q); auto. lia. Qed.
  Lemma rowat_S pn mn n ls o r : rowat (pn + width n) (mn + meth n) ls o r -> rowat pn mn (n :: ls) (S o) r.
  Proof.
    intros (i & j & subs & prims & m & rest & A & B & C & D & E & F & G & H & K & L). exists i, j, subs, prims, m, rest. rewrite idn_S, posn_S. do 9 (split; [assumption|]). intros k Lk. destruct (L k Lk) as (c & X & Y). exists (S c). split; [now apply kidline_S|]. now rewrite idn_S.
  Qed.

  Lemma map_nth_seq {A} (f : nat -> A) n i : i < n -> nth_error (map f (seq 0 n)) i = Some (f i).
  Proof. intros L. rewrite nth_error_map. rewrite (nth_error_nth' _ 0) by (rewrite seq_length; lia). rewrite seq_nth by lia. reflexivity. Qed.
  Lemma nth_rev_seq n i : i < n -> nth_error (rev (seq 0 n)) i = Some (n - 1 - i).
  Proof. intros L. rewrite (nth_error_nth' _ 0) by (rewrite rev_length, seq_length; lia). rewrite rev_nth, seq_length, seq_nth by (rewrite ?seq_length; lia). f_equal. lia. Qed.
  Lemma omap_choose {A B} (f : A -> option B) (Q : A -> B -> Prop) l : (forall a, In a l -> exists b, f a = Some b /\ Q a b) -> exists l', omap f l = Some l' /\ Forall2 Q l l'.
  Proof.
    induction l as [|a l IH]; intros H; [exists []; auto|]. destruct (H a (or_introl eq_refl)) as (b & E & Qb). destruct IH as (l' & E' & F); [intros; apply H; now right|]. exists (b :: l'). cbn. rewrite E, E'. auto.
  Qed.
  Lemma f2_nth {A B} (Q : A -> B -> Prop) l l' : Forall2 Q l l' -> forall i a, nth_error l i = Some a -> exists b, nth_error l' i = Some b /\ Q a b.
  Proof. induction 1; intros [|i] a E; cbn in E; try discriminate; [injection E as <-; eexists; split; [reflexivity|auto]|]. apply IHForall2; auto. Qed.
  Lemma f2_len {A B} (Q : A -> B -> Prop) l l' : Forall2 Q l l' -> length l = length l'.
  Proof. induction 1; cbn; auto. Qed.
  Lemma some_list {A} (Q : A -> Prop) (l : list (option A)) : Forall (fun x => exists a, x = Some a) l -> exists l', l = map Some l'.
  Proof. induction 1 as [|x l (a & ->) F (l' & ->)]; [exists []; auto|]. exists (a :: l'). auto. Qed.
  Lemma skip_nth {A} (l : list A) i : nth_error l i = nth_error l i.
  Proof. reflexivity. Qed.

  Lemma forall_nth {A} (Q : A -> Prop) l : Forall Q l -> forall i a, nth_error l i = Some a -> Q a.
  Proof. intros F i a E. rewrite Forall_forall in F. apply F. eapply nth_error_In; eauto. Qed.
  Lemma okl_app l1 l2 : okl (l1 ++ l2) -> okl l1.
  Proof. intros H. apply Forall_app in H. tauto. Qed.

  Lemma rows_ok k ls : srun k ls -> forall pn mn, exists rs, rows P ro pmax (lines pn mn ls) = Some (map lift rs) /\
    (forall r, In r rs -> exists o, rowat pn mn ls o r) /\ (forall o i j subs prims, nth_error ls o = Some (NMeth i j subs prims) -> exists r, In r rs /\ rowat pn mn ls o r) /\
    map rw_id rs = map (fun x => x + pmax) (seq mn (nmeth ls)).
  Proof.
    induction 1 as [|n t rest k0 r O H R IH]; intros pn mn; [exists []; split; [reflexivity|split; [intros r []|split; [intros [|o] i j subs prims E; discriminate|reflexivity]]]|].
    destruct (IH (pn + width n) (mn + meth n)) as (rs & E & A & B & C). assert (OS := O). destruct O as [i j Q|i j subs prims m rest Em Es PR RR SB].
    - cbn [lines rows width meth] in *. rewrite Nat.add_0_r, Nat.add_1_r in E. rewrite E. exists rs. split; auto. split; [intros r0 I; destruct (A r0 I) as (o & X); exists (S o); now apply rowat_S|]. split; [|change (nmeth (NPrim i j :: r)) with (nmeth r); rewrite Nat.add_0_r in C; exact C].
      intros [|o] i' j' s' p' Eo; [discriminate|]. destruct (B o i' j' s' p' Eo) as (r0 & I & X). exists r0. split; auto. now apply rowat_S.
    - destruct (ro_get i m Em) as (s & f & RA & RB). rewrite RR in RA. injection RA as <- <-. cbn [lines rows width meth] in *. rewrite Nat.add_1_r in E. unfold get at 1. rewrite Em, RB. cbn [obind].
      set (fi := match prims with [] => None | _ :: _ => Some (seq pn (length prims)) end). assert (EF : match fi with Some l => (l, length prims) | None => ([], 0) end = (seq pn (length prims), length prims)) by (unfold fi; destruct prims; reflexivity). rewrite EF. clear EF fi.
      set (hs := match subs with [] => None | _ :: _ => Some (read_list subs (length (m_subs m))) end). assert (Ls : length (m_subs m) - length prims = length rest) by (rewrite Es, app_length; lia). rewrite Ls.
      assert (KID : forall k, k < length rest -> exists c, t' <- get (rev (m_subs m)) k ;; find_sub P pmax t' hs k (lines (pn + length prims) (S mn) r) = Some (Some (idn pn mn (NMeth i j subs prims :: r) (S c))) /\ kidline (NMeth i j subs prims :: r) 0 (j + k) (S c) (nth (length rest - 1 - k) rest 0)).
      { intros k Lk. assert (Gt : get (rev (m_subs m)) k = Some (nth (length rest - 1 - k) rest 0)).
        { unfold get. rewrite Es, rev_app_distr, nth_error_app1 by (rewrite rev_length; lia). rewrite (nth_error_nth' _ 0) by (rewrite rev_length; lia). rewrite rev_nth by lia. f_equal. f_equal. lia. }
        rewrite Gt. cbn [obind]. assert (GH : exists l, hs = Some l /\ get l k = Some (j + k)).
        { unfold hs. destruct (length rest =? 0) eqn:E0; [apply Nat.eqb_eq in E0; lia|]. destruct subs as [|s0 subs0] eqn:ES; [destruct rest; cbn in SB; [cbn in Lk; lia|discriminate]|]. rewrite SB. eexists. split; [reflexivity|]. unfold get, read_list. rewrite map_nth_seq by (rewrite Es, app_length; lia). f_equal.
          rewrite nth_indep with (d' := j + 0) by (rewrite map_length, seq_length; lia). rewrite (map_nth (fun k => j + k)), seq_nth by lia. lia. }
        destruct GH as (l & -> & Gl). destruct (cell _ _ R (j + k)) as (l1 & x & l2 & rs' & -> & F & Hx & Ox); [rewrite app_length; cbn in H; lia|]. cbn in H.
        assert (Ox' : ok x (nth (length rest - 1 - k) rest 0) rs'). { rewrite app_length, app_nth1 in Ox by lia. replace (length rest + length k0 - 1 - (j + k)) with (length rest - 1 - k) in Ox by lia. exact Ox. }
        assert (OK1 : okl l1) by (apply (okl_app l1 (x :: l2)); eapply srun_ok; eauto). assert (Ex : nth_error (l1 ++ x :: l2) (length l1) = Some x) by (rewrite nth_error_app2, Nat.sub_diag by lia; reflexivity).
        exists (length l1). split.
        - rewrite (find_ok l1 x _ rs' (j + k) l k l2 Hx Ox' Gl OK1 F). rewrite idn_S. unfold idn. rewrite Ex. unfold posn. rewrite firstn_app, Nat.sub_diag, firstn_O, app_nil_r, firstn_all. cbn [width meth]. rewrite (Nat.add_1_r mn). reflexivity.
        - split; [lia|]. split; [exists x, rs'; auto|]. intros [|q] z L Ez; [lia|]. cbn in Ez. rewrite nth_error_app1 in Ez by lia. rewrite Forall_forall in F. apply F. eapply nth_error_In; eauto. }
      set (Q := fun k x => exists c, x = Some (idn pn mn (NMeth i j subs prims :: r) (S c)) /\ kidline (NMeth i j subs prims :: r) 0 (j + k) (S c) (nth (length rest - 1 - k) rest 0)).
      destruct (omap_choose (fun k => t' <- get (rev (m_subs m)) k ;; find_sub P pmax t' hs k (lines (pn + length prims) (S mn) r)) Q (rev (seq 0 (length rest)))) as (ks & Ek & FK).
      { intros k I. apply in_rev, in_seq in I. destruct (KID k) as (c & X & Y); [lia|]. eexists. split; [exact X|]. exists c. auto. }
      rewrite Ek. cbn [obind]. rewrite E. cbn [obind]. destruct (some_list (fun _ => True) ks) as (ks' & ->).
      { clear - FK. induction FK as [|k x l l' (c & -> & _) F IHF]; constructor; eauto. }
      assert (Lk : length ks' = length rest) by (apply f2_len in FK; rewrite rev_length, seq_length, map_length in FK; auto).
      set (r0 := {| rw_id := mn + pmax; rw_task := m_task m; rw_meth := i; rw_kids := seq pn (length prims) ++ ks' |}).
      assert (RA : rowat pn mn (NMeth i j subs prims :: r) 0 r0).
      { exists i, j, subs, prims, m, rest. split; [reflexivity|]. split; auto. split; auto. split; auto. split; [unfold idn, nmeth; cbn; now rewrite Nat.add_0_r|]. split; [reflexivity|]. split; [reflexivity|]. cbn [rw_kids r0].
        split; [rewrite app_length, seq_length, Lk, Es, app_length; reflexivity|]. split.
        - intros x Lx. rewrite nth_error_app1 by (rewrite seq_length; lia). rewrite (nth_error_nth' _ 0) by (rewrite seq_length; lia). rewrite seq_nth by lia. unfold posn. cbn. now rewrite Nat.add_0_r.
        - intros k Lk'. assert (Er := nth_rev_seq (length rest) (length rest - 1 - k) ltac:(lia)). replace (length rest - 1 - (length rest - 1 - k)) with k in Er by lia. destruct (f2_nth _ _ _ FK _ _ Er) as (b & Eb & c & -> & KL). exists (S c). split; auto.
          rewrite nth_error_app2 by (rewrite seq_length; lia). rewrite seq_length. replace (length prims + (length rest - 1 - k) - length prims) with (length rest - 1 - k) by lia. rewrite nth_error_map in Eb. destruct (nth_error ks' _); [cbn in Eb; congruence|discriminate]. }
      exists (r0 :: rs). split; [cbn [map lift]; unfold lift at 2; cbn [rw_id rw_task rw_meth rw_kids r0]; rewrite map_app; reflexivity|]. split; [|split].
      + intros r1 [<-|I]; [exists 0; exact RA|]. destruct (A r1 I) as (o & X). exists (S o). apply rowat_S. cbn [width meth]. exact X.
      + intros [|o] i' j' s' p' Eo; [exists r0; split; [now left|exact RA]|]. destruct (B o i' j' s' p' Eo) as (r1 & I & X). exists r1. split; [now right|]. apply rowat_S. exact X.
      + cbn [map rw_id r0]. rewrite C. rewrite (Nat.add_1_r mn). reflexivity.
  Qed.
End Lines.
