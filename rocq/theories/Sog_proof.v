(** Proofs about the placement of totally ordered sequences. *)
From Coq Require Import ZArith.
From Verif Require Import Base Htn_problem Sog_model Sog_spec.

(** ** Placements *)
Lemma nth_snoc {A} (l : list A) x i d : nth i (l ++ [x]) d = if Nat.eqb i (length l) then x else nth i l d.
Proof.
  destruct (Nat.eqb_spec i (length l)) as [->|N].
  - rewrite app_nth2, Nat.sub_diag by lia. reflexivity.
  - destruct (Nat.lt_ge_cases i (length l)) as [L|L]; [now rewrite app_nth1|]. rewrite !nth_overflow; auto. rewrite app_length; cbn; lia.
Qed.
Lemma placement_nil n : placement n [] [].
Proof. split; auto. split; [intros p []|]. cbn. intros; lia. Qed.
Lemma placement_snoc n sq t pos : placement n (sq ++ [t]) pos <-> exists pos' p, pos = pos' ++ [p] /\ placement p sq pos' /\ p < n.
Proof.
  split.
  - intros (L & B & O). rewrite app_length in L. cbn in L. destruct (@exists_last _ pos) as (pos' & p & ->); [intros ->; cbn in L; lia|]. rewrite app_length in L. cbn in L.
    exists pos', p. split; auto. assert (p < n) by (apply B, in_or_app; right; now left). split; auto. split; [lia|]. split.
    + intros q Hq. apply In_nth with (d := 0) in Hq as (i & Hi & <-). specialize (O i (length pos')). rewrite !nth_snoc, app_length, Nat.eqb_refl in O. cbn in O.
      destruct (Nat.eqb_spec i (length pos')); [lia|]. apply O; lia.
    + intros i j Hij Hj. specialize (O i j Hij). rewrite !nth_snoc, app_length in O. cbn in O. destruct (Nat.eqb_spec i (length pos')), (Nat.eqb_spec j (length pos')); try lia.
  - intros (pos' & p & -> & (L & B & O) & Hp). split; [rewrite !app_length; cbn; lia|]. split.
    + intros q Hq. apply in_app_or in Hq as [Hq|[<-|[]]]; auto. specialize (B q Hq). lia.
    + intros i j Hij Hj. rewrite app_length in Hj. cbn in Hj. rewrite !nth_snoc. destruct (Nat.eqb_spec i (length pos')), (Nat.eqb_spec j (length pos')); try lia; [|apply O; lia].
      apply B. apply nth_In. lia.
Qed.
Lemma placement_le n n' sq pos : n <= n' -> placement n sq pos -> placement n' sq pos.
Proof. intros L (A & B & O). split; auto. split; auto. intros p Hp. specialize (B p Hp). lia. Qed.
Lemma placement_length sq : forall n pos, placement n sq pos -> length sq <= n.
Proof.
  induction sq as [|t sq IH] using rev_ind; intros n pos H; [cbn; lia|]. apply placement_snoc in H as (pos' & p & -> & H & L). apply IH in H. rewrite app_length. cbn. lia.
Qed.
Lemma new_labels_snoc labels sq : forall pos t p, length pos = length sq ->
  new_labels labels (sq ++ [t]) (pos ++ [p]) = new_labels labels sq pos + (if in_dec Nat.eq_dec t (nth p labels []) then 0 else 1).
Proof.
  induction sq as [|s sq IH]; intros [|q pos] t p L; cbn [length] in L; try discriminate.
  - cbn. lia.
  - cbn [app new_labels]. rewrite IH by lia. lia.
Qed.

(** ** The table *)
Definition cell (tab : list (list (Z * bool))) (x y : nat) : Z * bool := nth y (nth x tab []) (0%Z, false).
Definition need (labels : list (list nat)) (t y : nat) : Z := if memb t (nth y labels []) then 0%Z else 1%Z.

Lemma cells_length x task labels : forall prev left y, length prev = S (length labels) -> length (dp_cells x task labels prev left y) = length labels.
Proof.
  induction labels as [|ls lr IH]; intros [|p pr] left y L; cbn in L; try discriminate; [reflexivity|]. cbn. f_equal. apply IH. lia.
Qed.
Lemma cells_nth x task labels : forall prev left y k, length prev = S (length labels) -> k < length labels ->
  nth k (dp_cells x task labels prev left y) (0%Z, false) =
    (if Nat.ltb (y + k) x then (impossible, false)
     else let l := match k with 0 => left | S k' => fst (nth k' (dp_cells x task labels prev left y) (0%Z, false)) end in
          let put := (need labels task k + fst (nth k prev (0%Z, false)))%Z in
          if (l <? put)%Z then (l, false) else (put, true)).
Proof.
  induction labels as [|ls lr IH]; intros [|p pr] left y k L Hk; cbn in L, Hk; try discriminate; try lia.
  destruct k as [|k]; cbn [dp_cells nth].
  - rewrite Nat.add_0_r. unfold need. cbn [nth]. reflexivity.
  - rewrite IH by lia. replace (S y + k) with (y + S k) by lia. unfold need. cbn [nth]. destruct (Nat.ltb (y + S k) x); auto. destruct k; reflexivity.
Qed.
Lemma row_length x task labels prev : length prev = S (length labels) -> length (dp_row x task labels prev) = S (length labels).
Proof. intros L. unfold dp_row. cbn. now rewrite cells_length. Qed.
Lemma rows_spec labels sq : forall x prev, length prev = S (length labels) ->
  length (dp_rows x sq labels prev) = S (length sq) /\ nth 0 (dp_rows x sq labels prev) [] = prev /\
  (forall i, i <= length sq -> length (nth i (dp_rows x sq labels prev) []) = S (length labels)) /\
  (forall i, i < length sq -> nth (S i) (dp_rows x sq labels prev) [] = dp_row (x + S i) (nth i sq 0) labels (nth i (dp_rows x sq labels prev) [])).
Proof.
  induction sq as [|t sq IH]; intros x prev L; cbn [dp_rows length nth].
  - split; auto. split; auto. split; [|intros; lia]. intros [|i] H; [exact L|lia].
  - destruct (IH (S x) (dp_row (S x) t labels prev) (row_length _ _ _ _ L)) as (A & B & C & D). split; [lia|]. split; auto. split.
    + intros [|i] H; [exact L|]. cbn [nth]. apply C. lia.
    + intros [|i] H.
      * rewrite Nat.add_1_r. exact B.
      * cbn [nth]. rewrite D by lia. replace (S x + S i) with (x + S (S i)) by lia. reflexivity.
Qed.

Lemma firstn_snoc (l : list nat) x : x < length l -> firstn (S x) l = firstn x l ++ [nth x l 0].
Proof. revert x. induction l as [|a l IH]; intros [|x] H; cbn in *; try lia; auto. f_equal. apply IH. lia. Qed.

Section Table.
  Variables (labels : list (list nat)) (sq : list nat) (tab : list (list (Z * bool))).
  Hypothesis ET : dp_table sq labels = Some tab.
  Let n := length labels.

  Lemma tab_eq : tab = dp_rows 0 sq labels (repeat (0%Z, false) (S n)) /\ length sq <= n.
  Proof. unfold dp_table in ET. destruct (Nat.ltb_spec (length labels) (length sq)); [discriminate|]. injection ET as <-. auto. Qed.
  Lemma tab_rows : length tab = S (length sq) /\ nth 0 tab [] = repeat (0%Z, false) (S n) /\
    (forall i, i <= length sq -> length (nth i tab []) = S n) /\
    (forall i, i < length sq -> nth (S i) tab [] = dp_row (S i) (nth i sq 0) labels (nth i tab [])).
  Proof. destruct tab_eq as [-> L]. apply (rows_spec labels sq 0). now rewrite repeat_length. Qed.

  Lemma cell_0 y : cell tab 0 y = (0%Z, false).
  Proof. unfold cell. destruct tab_rows as (_ & -> & _). destruct (Nat.lt_ge_cases y (S n)); [now apply nth_repeat|]. apply nth_overflow. now rewrite repeat_length. Qed.
  Lemma cell_S0 x : x < length sq -> cell tab (S x) 0 = (impossible, false).
  Proof. intros H. unfold cell. destruct tab_rows as (_ & _ & _ & R). rewrite R by auto. reflexivity. Qed.
  Lemma cell_SS x y : x < length sq -> y < n -> cell tab (S x) (S y) =
    if Nat.ltb (S y) (S x) then (impossible, false)
    else if (fst (cell tab (S x) y) <? need labels (nth x sq O) y + fst (cell tab x y))%Z then (fst (cell tab (S x) y), false)
    else ((need labels (nth x sq O) y + fst (cell tab x y))%Z, true).
  Proof.
    intros Hx Hy. unfold cell at 1 2 4. destruct tab_rows as (_ & _ & LR & R). rewrite R by auto. unfold dp_row at 1. cbn [nth].
    rewrite cells_nth; [|apply LR; lia|exact Hy]. cbn [Nat.add]. destruct (Nat.ltb (S y) (S x)); auto. destruct y; reflexivity.
  Qed.

  Lemma need_01 t y : (0 <= need labels t y <= 1)%Z.
  Proof. unfold need. destruct (memb t (nth y labels [])); lia. Qed.
  Lemma need_in t y : need labels t y = Z.of_nat (if in_dec Nat.eq_dec t (nth y labels []) then 0 else 1).
  Proof. unfold need. destruct (memb t (nth y labels [])) eqn:M; destruct (in_dec Nat.eq_dec t (nth y labels [])) as [I|I]; auto; [apply memb_In in M; contradiction|apply memb_false in M; contradiction]. Qed.

  Hypothesis SMALL : (Z.of_nat (length sq) <= impossible)%Z.

  Lemma cell_bound y : forall x, x <= y -> y <= n -> x <= length sq -> (0 <= fst (cell tab x y) <= Z.of_nat x)%Z.
  Proof.
    induction y as [|y IH]; intros [|x] H1 H2 H3; try (rewrite cell_0; cbn [fst]; lia); try lia.
    rewrite cell_SS by lia. destruct (Nat.ltb_spec (S y) (S x)); [lia|]. assert (N := need_01 (nth x sq O) y). assert (I1 := IH x ltac:(lia) ltac:(lia) ltac:(lia)).
    destruct (Z.ltb_spec (fst (cell tab (S x) y)) (need labels (nth x sq O) y + fst (cell tab x y))) as [L|L]; cbn [fst]; [|lia].
    destruct (Nat.eq_dec x y) as [->|NE]; [|specialize (IH (S x) ltac:(lia) ltac:(lia) ltac:(lia)); lia].
    exfalso. destruct y as [|y]; [rewrite cell_S0 in L by lia|rewrite (cell_SS (S y) y) in L by lia; destruct (Nat.ltb_spec (S y) (S (S y))); [|lia]]; cbn [fst] in L; lia.
  Qed.
  Lemma cell_big x y : S x <= length sq -> y <= n -> y < S x -> fst (cell tab (S x) y) = impossible.
  Proof.
    intros H1 H2 H3. destruct y as [|y]; [now rewrite cell_S0|]. rewrite cell_SS by lia. destruct (Nat.ltb_spec (S y) (S x)); [reflexivity|lia].
  Qed.
  Lemma cell_false x y : S x <= S y -> S y <= n -> S x <= length sq -> snd (cell tab (S x) (S y)) = false -> S x <= y /\ fst (cell tab (S x) (S y)) = fst (cell tab (S x) y).
  Proof.
    intros H1 H2 H3. rewrite cell_SS by lia. destruct (Nat.ltb_spec (S y) (S x)); [lia|]. destruct (Z.ltb_spec (fst (cell tab (S x) y)) (need labels (nth x sq O) y + fst (cell tab x y))) as [L|L]; cbn [fst snd]; [|discriminate].
    intros _. split; auto. destruct (Nat.eq_dec x y) as [->|NE]; [|lia]. exfalso. rewrite cell_big in L by lia. assert (N := need_01 (nth y sq O) y). assert (B := cell_bound y y ltac:(lia) ltac:(lia) ltac:(lia)). lia.
  Qed.
  Lemma cell_true x y : S x <= S y -> S y <= n -> S x <= length sq -> snd (cell tab (S x) (S y)) = true -> fst (cell tab (S x) (S y)) = (need labels (nth x sq O) y + fst (cell tab x y))%Z.
  Proof.
    intros H1 H2 H3. rewrite cell_SS by lia. destruct (Nat.ltb_spec (S y) (S x)); [lia|]. destruct (Z.ltb_spec (fst (cell tab (S x) y)) (need labels (nth x sq O) y + fst (cell tab x y))) as [L|L]; cbn [fst snd]; [discriminate|auto].
  Qed.

  Lemma cell_optimal y : forall x pos, y <= n -> x <= length sq -> placement y (firstn x sq) pos -> (fst (cell tab x y) <= Z.of_nat (new_labels labels (firstn x sq) pos))%Z.
  Proof.
    induction y as [|y IH]; intros x pos H1 H2 PL.
    - assert (L := placement_length _ _ _ PL). rewrite firstn_length_le in L by auto. assert (x = 0) by lia. subst. rewrite cell_0. cbn [fst]. lia.
    - destruct x as [|x]; [rewrite cell_0; cbn [fst]; lia|]. assert (L := placement_length _ _ _ PL). rewrite firstn_length_le in L by auto. rewrite firstn_snoc in * by lia.
      apply placement_snoc in PL as (pos' & p & -> & PL & Hp). rewrite new_labels_snoc by apply PL. rewrite Nat2Z.inj_add, <- need_in. rewrite cell_SS by lia. destruct (Nat.ltb_spec (S y) (S x)); [lia|].
      assert (A : (p = y -> need labels (nth x sq O) y + fst (cell tab x y) <= Z.of_nat (new_labels labels (firstn x sq) pos') + need labels (nth x sq O) p)%Z).
      { intros ->. specialize (IH x pos' ltac:(lia) ltac:(lia) PL). lia. }
      assert (B : ((p < y)%nat -> fst (cell tab (S x) y) <= Z.of_nat (new_labels labels (firstn x sq) pos') + need labels (nth x sq O) p)%Z).
      { intros Q. specialize (IH (S x) (pos' ++ [p]) ltac:(lia) ltac:(lia)). rewrite firstn_snoc in IH by lia. rewrite new_labels_snoc, Nat2Z.inj_add, <- need_in in IH by apply PL.
        apply IH. apply placement_snoc. exists pos', p. auto. }
      destruct (Z.ltb_spec (fst (cell tab (S x) y)) (need labels (nth x sq O) y + fst (cell tab x y))) as [Q|Q]; cbn [fst]; destruct (Nat.eq_dec p y) as [E|E]; [specialize (A E)|apply B; lia|auto|assert (p < y) by lia; specialize (B ltac:(auto))]; lia.
  Qed.

  (** ** Reading off the positions *)
  Fixpoint path (y x : nat) : list nat :=
    match y, x with
    | S y', S x' => if snd (cell tab x y) then path y' x' ++ [y'] else path y' x
    | _, _ => []
    end.
  Lemma path_0 y : path y 0 = [].
  Proof. destruct y; reflexivity. Qed.
  Lemma path_ok y : forall x, x <= y -> y <= n -> x <= length sq ->
    placement y (firstn x sq) (path y x) /\ Z.of_nat (new_labels labels (firstn x sq) (path y x)) = fst (cell tab x y).
  Proof.
    induction y as [|y IH]; intros [|x] H1 H2 H3; try lia; try (rewrite path_0, cell_0; split; [apply placement_nil|reflexivity]).
    cbn [path]. destruct (snd (cell tab (S x) (S y))) eqn:E.
    - destruct (IH x ltac:(lia) ltac:(lia) ltac:(lia)) as [PL NL]. rewrite firstn_snoc by lia. split; [apply placement_snoc; exists (path y x), y; auto|].
      rewrite new_labels_snoc by apply PL. rewrite Nat2Z.inj_add, <- need_in, NL. rewrite (cell_true x y) by (auto; lia). lia.
    - destruct (cell_false x y) as [L EQ]; auto. destruct (IH (S x) L ltac:(lia) H3) as [PL NL]. split; [eapply placement_le; [|exact PL]; lia|]. now rewrite NL, EQ.
  Qed.

  Variable mp : list nat.
  Hypothesis LMP : length mp = length sq.

  (** What the loop writes. *)
  Definition put_label (labs : list (list nat)) (t p : nat) : option (list (list nat)) := ls <- get labs p ;; set labs p (if memb t ls then ls else t :: ls).
  Lemma back_path y : forall x labs asg, x <= y -> y <= n -> x <= length sq -> length labs = n -> (forall i, In i (firstn x mp) -> i < length asg) -> NoDup (firstn x mp) ->
    exists labs' asg', dp_back tab sq mp y x labs asg = Some (labs', asg') /\ length labs' = n /\ length asg' = length asg /\
      (forall j, j < x -> nth (nth j mp 0) asg' 0 = nth j (path y x) 0) /\
      (forall i, ~ In i (firstn x mp) -> nth i asg' 0 = nth i asg 0) /\
      (forall v t, In t (nth v labs' []) <-> In t (nth v labs []) \/ exists j, j < x /\ nth j (path y x) 0 = v /\ nth j sq 0 = t).
  Proof.
    destruct tab_rows as (LT & _ & LR & _).
    induction y as [|y IH]; intros [|x] labs asg H1 H2 H3 LL RA ND; try lia.
    - cbn. exists labs, asg. repeat split; auto; intros; try lia. destruct H as [H|(j & H & _)]; [auto|lia].
    - cbn. exists labs, asg. repeat split; auto; intros; try lia. destruct H as [H|(j & H & _)]; [auto|lia].
    - cbn [dp_back]. 
      assert (G1 : get tab (S x) = Some (nth (S x) tab [])) by (apply nth_error_nth'; lia). rewrite G1. cbn [obind].
      assert (G2 : get (nth (S x) tab []) (S y) = Some (cell tab (S x) (S y))) by (apply nth_error_nth'; rewrite LR by lia; lia). rewrite G2. cbn [obind].
      assert (FS : firstn (S x) mp = firstn x mp ++ [nth x mp 0]).
      { apply firstn_snoc. lia. }
      cbn [path]. destruct (snd (cell tab (S x) (S y))) eqn:EC.
      + assert (G3 : get sq x = Some (nth x sq O)) by (apply nth_error_nth'; lia). rewrite G3. cbn [obind].
        assert (G4 : get mp x = Some (nth x mp 0)) by (apply nth_error_nth'; lia). rewrite G4. cbn [obind].
        assert (G5 : get labs y = Some (nth y labs [])) by (apply nth_error_nth'; lia). rewrite G5. cbn [obind].
        set (t := nth x sq 0) in *. destruct (set_some labs y (if memb t (nth y labs []) then nth y labs [] else t :: nth y labs [])) as (labs1 & E1); [lia|]. rewrite E1. cbn [obind].
        destruct (set_some asg (nth x mp 0) y) as (asg1 & E2); [apply RA; rewrite FS; apply in_or_app; right; now left|]. rewrite E2. cbn [obind].
        assert (L1 := set_length _ _ _ _ E1). assert (L2 := set_length _ _ _ _ E2). rewrite FS in ND. apply nodup_app_iff in ND as (ND & _ & DJ).
        destruct (IH x labs1 asg1) as (labs' & asg' & E & LL' & LA' & PO & RE & LB); auto; try lia.
        { intros i Hi. rewrite L2. apply RA. rewrite FS. apply in_or_app. auto. }
        exists labs', asg'. split; auto. split; auto. split; [lia|].
        destruct (path_ok y x ltac:(lia) ltac:(lia) ltac:(lia)) as [PL _]. assert (LP : length (path y x) = x) by (rewrite (proj1 PL), firstn_length_le; lia).
        split; [|split].
        * intros j Hj. rewrite nth_snoc, LP. destruct (Nat.eqb_spec j x) as [->|NE]; [|apply PO; lia].
          rewrite RE by (intros Q; apply (DJ _ Q); now left). rewrite (nth_error_nth asg1 (nth x mp 0) 0 (get_set_eq _ _ _ _ E2)). reflexivity.
        * intros i Hi. rewrite FS in Hi. rewrite RE by (intros Q; apply Hi, in_or_app; auto). assert (NI : nth x mp 0 <> i) by (intros <-; apply Hi, in_or_app; right; now left).
          assert (G := get_set_neq _ _ _ _ _ E2 NI). unfold get in G. clear -G. destruct (nth_error asg i) as [z|] eqn:Z.
          -- now rewrite (nth_error_nth _ _ 0 G), (nth_error_nth _ _ 0 Z).
          -- rewrite !nth_overflow; auto; now apply nth_error_None.
        * intros v u. rewrite LB. assert (LV : In u (nth v labs1 []) <-> In u (nth v labs []) \/ (v = y /\ u = t)).
          { destruct (Nat.eq_dec y v) as [<-|NE].
            - rewrite (nth_error_nth labs1 y [] (get_set_eq _ _ _ _ E1)). destruct (memb t (nth y labs [])) eqn:M; [apply memb_In in M; split; auto; intros [Q|[_ ->]]; auto|]. cbn. split; [intros [<-|Q]; auto|intros [Q|[_ ->]]; auto].
            - assert (G := get_set_neq _ _ _ _ _ E1 NE). unfold get in G. assert (nth v labs1 [] = nth v labs []) as ->; [|split; auto; intros [Q|[-> _]]; [auto|contradiction]].
              destruct (nth_error labs v) as [z|] eqn:Z; [now rewrite (nth_error_nth _ _ [] G), (nth_error_nth _ _ [] Z)|]. rewrite !nth_overflow; auto; now apply nth_error_None. }
          rewrite LV. split.
          -- intros [[Q|[-> ->]]|(j & Hj & <- & <-)]; auto; right.
             ++ exists x. rewrite nth_snoc, LP, Nat.eqb_refl. auto.
             ++ exists j. rewrite nth_snoc, LP. destruct (Nat.eqb_spec j x); [lia|]. auto.
          -- intros [Q|(j & Hj & <- & <-)]; auto. rewrite nth_snoc, LP. destruct (Nat.eqb_spec j x) as [->|NE]; [auto|]. right. exists j. repeat split; auto. lia.
      + destruct (cell_false x y) as [L _]; auto. apply IH; auto; lia.
  Qed.

  Lemma add_sequence_ok asg : (forall i, In i mp -> i < length asg) -> NoDup mp ->
    exists pos labs' asg', addSequenceToSOG labels sq mp asg = Some (labs', asg') /\ length labs' = n /\ length asg' = length asg /\
      placement n sq pos /\
      (forall j, j < length sq -> nth (nth j mp 0) asg' 0 = nth j pos 0) /\
      (forall v t, In t (nth v labs' []) <-> In t (nth v labels []) \/ exists j, j < length sq /\ nth j pos 0 = v /\ nth j sq 0 = t) /\
      (forall pos', placement n sq pos' -> new_labels labels sq pos <= new_labels labels sq pos').
  Proof.
    intros RA ND. destruct tab_eq as [_ LS]. unfold addSequenceToSOG. rewrite ET. cbn [obind]. fold n.
    destruct (back_path n (length sq) labels asg) as (labs' & asg' & E & L1 & L2 & PO & _ & LB); auto; try lia.
    { rewrite <- LMP, firstn_all. auto. } { rewrite <- LMP, firstn_all. auto. }
    destruct (path_ok n (length sq)) as [PL NL]; auto; try lia. rewrite firstn_all in *.
    exists (path n (length sq)), labs', asg'. repeat split; auto; try apply PL; try apply LB. intros pos' PL'.
    assert (O := cell_optimal n (length sq) pos' ltac:(lia) ltac:(lia)). rewrite firstn_all in O. specialize (O PL'). lia.
  Qed.
End Table.

(** ** All methods of a node *)
Definition perm_seq (k : nat) (o : list nat) : Prop := NoDup o /\ forall j, In j o <-> j < k.
Lemma perm_seq_length k o : perm_seq k o -> length o = k.
Proof.
  intros [N I]. apply Nat.le_antisymm.
  - rewrite <- (seq_length k 0). apply NoDup_incl_length; auto. intros j H. apply in_seq. apply I in H. lia.
  - rewrite <- (seq_length k 0) at 1. apply NoDup_incl_length; [apply seq_NoDup|]. intros j H. apply in_seq in H. apply I. lia.
Qed.
Lemma omap_get_seq {A} (l : list A) : omap (get l) (seq 0 (length l)) = Some l.
Proof.
  assert (H : forall pre, omap (get (pre ++ l)) (seq (length pre) (length l)) = Some l).
  { induction l as [|a l IH]; intros pre; auto. cbn [length seq omap]. assert (G : get (pre ++ a :: l) (length pre) = Some a) by (unfold get; rewrite nth_error_app2, Nat.sub_diag by lia; reflexivity).
    rewrite G. cbn [obind]. specialize (IH (pre ++ [a])). rewrite <- app_assoc, app_length, Nat.add_1_r in IH. cbn [app] in IH. rewrite IH. reflexivity. }
  exact (H []).
Qed.
Lemma omap_get_nth (l o : list nat) : (forall j, In j o -> j < length l) -> omap (get l) o = Some (map (fun j => nth j l 0) o).
Proof.
  induction o as [|j o IH]; intros H; auto. cbn [omap map]. assert (G : get l j = Some (nth j l 0)) by (apply nth_error_nth', H; now left). rewrite G. cbn [obind].
  rewrite IH; auto. intros i Hi. apply H. now right.
Qed.

Section Methods.
  Variables (P : problem) (mto : list (list nat)).

  Lemma to_place_ok m me o labels : get (p_methods P) m = Some me -> get mto m = Some o -> perm_seq (length (m_subs me)) o ->
    length (m_subs me) <= length labels -> (Z.of_nat (length (m_subs me)) <= impossible)%Z ->
    exists labels' asg, to_place P mto labels m = Some (labels', asg) /\ length labels' = length labels /\ length asg = length (m_subs me) /\
      placement (length labels) o (map (fun j => nth j asg 0) o).
  Proof.
    intros Gm Go PS LL SM. assert (LO := perm_seq_length _ _ PS). destruct PS as [ND IN]. unfold to_place. rewrite Gm. cbn [obind]. rewrite Go. cbn [obind].
    replace (seq 0 (length (m_subs me))) with (seq 0 (length o)) by (now rewrite LO). rewrite omap_get_seq. cbn [obind]. rewrite omap_get_nth by (intros j; apply IN). cbn [obind]. set (sq := map (fun j => nth j (m_subs me) 0) o).
    assert (LSQ : length sq = length o) by (unfold sq; now rewrite map_length). assert (ET : exists tab, dp_table sq labels = Some tab).
    { unfold dp_table. destruct (Nat.ltb_spec (length labels) (length sq)); [lia|eauto]. } destruct ET as (tab & ET).
    destruct (add_sequence_ok labels sq tab ET) with (mp := o) (asg := repeat 0 (length (m_subs me))) as (pos & labs' & asg' & E & L1 & L2 & PL & PO & _ & _); auto; try (rewrite LSQ, LO; auto).
    { intros i Hi. rewrite repeat_length. now apply IN. }
    exists labs', asg'. rewrite repeat_length in L2. repeat split; auto; [now rewrite map_length| |].
    - intros p Hp. apply in_map_iff in Hp as (j & <- & Hj). apply In_nth with (d := 0) in Hj as (i & Hi & <-). rewrite PO by lia. apply PL. apply nth_In. rewrite (proj1 PL). lia.
    - intros i j Hij Hj. rewrite map_length in Hj. assert (Q := proj2 (proj2 PL) i j Hij). rewrite (proj1 PL), LSQ in Q. specialize (Q Hj).
      rewrite <- (PO i), <- (PO j) in Q by lia. rewrite !(nth_indep (map _ o) 0 (nth 0 asg' 0)) by (rewrite map_length; lia). rewrite !(map_nth (fun j => nth j asg' 0)). exact Q.
  Qed.

  Definition placed (n : nat) (m : nat) (asg : list nat) : Prop := exists me o, get (p_methods P) m = Some me /\ get mto m = Some o /\ length asg = length (m_subs me) /\ placement n o (map (fun j => nth j asg 0) o).

  Lemma to_places_ok ms : forall labels, (forall m, In m ms -> exists me o, get (p_methods P) m = Some me /\ get mto m = Some o /\ perm_seq (length (m_subs me)) o /\
      length (m_subs me) <= length labels /\ (Z.of_nat (length (m_subs me)) <= impossible)%Z) ->
    exists asgs, to_places P mto labels ms = Some asgs /\ Forall2 (placed (length labels)) ms asgs.
  Proof.
    induction ms as [|m ms IH]; intros labels H; [exists []; split; [reflexivity|constructor]|].
    destruct (H m (or_introl eq_refl)) as (me & o & Gm & Go & PS & LL & SM). destruct (to_place_ok m me o labels Gm Go PS LL SM) as (labels' & asg & E & L1 & L2 & PL).
    cbn [to_places]. rewrite E. cbn [obind]. destruct (IH labels') as (asgs & E' & F). { rewrite L1. intros x Hx. apply H. now right. }
    rewrite E'. cbn [obind]. exists (asg :: asgs). rewrite L1 in F. split; auto. constructor; auto. exists me, o. auto.
  Qed.

  Lemma to_sog_ok ms : (forall m, In m ms -> exists me o, get (p_methods P) m = Some me /\ get mto m = Some o /\ perm_seq (length (m_subs me)) o /\
      (Z.of_nat (length (m_subs me)) <= impossible)%Z /\ forall m0 me0, hd_error ms = Some m0 -> get (p_methods P) m0 = Some me0 -> length (m_subs me) <= length (m_subs me0)) ->
    exists n asgs, to_sog P mto ms = Some (n, asgs) /\ Forall2 (placed n) ms asgs /\
      match ms with [] => n = 0 | m0 :: _ => forall me0, get (p_methods P) m0 = Some me0 -> n = length (m_subs me0) end.
  Proof.
    intros H. destruct ms as [|m0 ms]; [exists 0, []; cbn; auto|]. destruct (H m0 (or_introl eq_refl)) as (me0 & o0 & G0 & _). unfold to_sog. rewrite G0. cbn [obind].
    destruct (to_places_ok (m0 :: ms) (repeat [] (length (m_subs me0)))) as (asgs & E & F).
    { intros m Hm. destruct (H m Hm) as (me & o & Gm & Go & PS & SM & LE). exists me, o. rewrite repeat_length. repeat split; auto; try apply PS. exact (LE m0 me0 eq_refl G0). }
    rewrite E. cbn [obind]. rewrite repeat_length in F. exists (length (m_subs me0)), asgs. split; auto. split; auto. intros me1 G1. congruence.
  Qed.
End Methods.
