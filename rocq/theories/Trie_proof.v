(** Proofs about Trie_model: words, packing of bit vectors, and the compressed trie as a map from bit strings. *)
From Coq Require Import NArith.
From Verif Require Import Base Trie_model.

(** ** Words *)
Lemma some_inj {A} (a b : A) : Some a = Some b -> b = a.
Proof. congruence. Qed.
Definition tb (w : N) (i : nat) : bool := N.testbit w (N.of_nat i).
Definition word_ok (w : N) : Prop := forall i, 64 <= i -> tb w i = false.

Lemma tb_land x y i : tb (N.land x y) i = andb (tb x i) (tb y i).
Proof. apply N.land_spec. Qed.
Lemma tb_lor x y i : tb (N.lor x y) i = orb (tb x i) (tb y i).
Proof. apply N.lor_spec. Qed.
Lemma tb_ldiff x y i : tb (N.ldiff x y) i = andb (tb x i) (negb (tb y i)).
Proof. apply N.ldiff_spec. Qed.
Lemma tb_0 i : tb 0 i = false.
Proof. apply N.bits_0. Qed.
Lemma tb_ones n i : tb (N.ones (N.of_nat n)) i = Nat.ltb i n.
Proof.
  unfold tb. destruct (Nat.ltb_spec i n).
  - apply N.ones_spec_low. lia.
  - apply N.ones_spec_high. lia.
Qed.
Lemma tb_shift p i : tb (N.shiftl 1 (N.of_nat p)) i = Nat.eqb i p.
Proof.
  unfold tb. destruct (Nat.eqb_spec i p) as [->|NE].
  - rewrite N.shiftl_spec_high' by lia. now rewrite N.sub_diag.
  - destruct (Nat.lt_ge_cases i p).
    + apply N.shiftl_spec_low. lia.
    + rewrite N.shiftl_spec_high' by lia. replace (N.of_nat i - N.of_nat p)%N with (N.succ (N.of_nat (i - p - 1))) by lia.
      change 1%N with (2 * 0 + 1)%N. rewrite N.testbit_odd_succ by lia. apply N.bits_0.
Qed.
Lemma tb_ext x y : (forall i, tb x i = tb y i) -> x = y.
Proof. intros H. apply N.bits_inj. intros i. rewrite <- (N2Nat.id i). apply H. Qed.

Lemma first_some b m : ignore_first b = Some m -> b < 64 /\ forall i, tb m i = andb (Nat.leb b i) (Nat.ltb i 64).
Proof.
  unfold ignore_first. destruct (Nat.ltb_spec b 64); [|discriminate]. intros E; apply some_inj in E; subst m. split; auto. intros i.
  rewrite tb_ldiff, tb_ones. change 64%N with (N.of_nat 64). rewrite tb_ones.
  destruct (Nat.ltb_spec i 64), (Nat.ltb_spec i b), (Nat.leb_spec b i); auto; lia.
Qed.
Lemma first_def b : b < 64 -> exists m, ignore_first b = Some m.
Proof. intros H. unfold ignore_first. rewrite (proj2 (Nat.ltb_lt _ _) H). eauto. Qed.
Lemma last_some b m : ignore_last b = Some m -> b <= 64 /\ forall i, tb m i = Nat.ltb i (64 - b).
Proof.
  unfold ignore_last. destruct (Nat.eqb_spec b 0) as [->|NE].
  - intros E; apply some_inj in E; subst m. split; [lia|]. intros i. change 64%N with (N.of_nat 64). now rewrite tb_ones.
  - destruct (Nat.leb_spec b 64); [|discriminate]. intros E; apply some_inj in E; subst m. split; auto. intros i. now rewrite tb_ones.
Qed.
Lemma last_def b : b <= 64 -> exists m, ignore_last b = Some m.
Proof. intros H. unfold ignore_last. destruct (Nat.eqb b 0); eauto. rewrite (proj2 (Nat.leb_le _ _) H). eauto. Qed.
Lemma bit_some b m : bit_mask b = Some m -> b < 64 /\ forall x, N.eqb (N.land x m) 0 = negb (tb x b).
Proof.
  unfold bit_mask. destruct (Nat.ltb_spec b 64); [|discriminate]. intros E; apply some_inj in E; subst m. split; auto. intros x.
  destruct (N.eqb_spec (N.land x (N.shiftl 1 (N.of_nat b))) 0) as [E|E].
  - assert (Q := f_equal (fun w => tb w b) E). cbn beta in Q. rewrite tb_land, tb_shift, Nat.eqb_refl, tb_0, andb_true_r in Q. now rewrite Q.
  - destruct (tb x b) eqn:Q; auto. elim E. apply tb_ext. intros i. rewrite tb_land, tb_shift, tb_0.
    destruct (Nat.eqb_spec i b) as [->|]; [now rewrite Q|apply andb_false_r].
Qed.
Lemma bit_def b : b < 64 -> exists m, bit_mask b = Some m.
Proof. intros H. unfold bit_mask. rewrite (proj2 (Nat.ltb_lt _ _) H). eauto. Qed.

(** ** Positions: bit [p] of a sequence of words *)
Definition sbit (s : list N) (p : nat) : bool := tb (nth (p / 64) s 0%N) (p mod 64).

Lemma pos_eq p : p = 64 * (p / 64) + p mod 64.
Proof. apply Nat.div_mod. lia. Qed.
Lemma pos_mod p : p mod 64 < 64.
Proof. apply Nat.mod_upper_bound. lia. Qed.
Lemma div_pos b j : j < 64 -> (64 * b + j) / 64 = b.
Proof. intros H. rewrite Nat.mul_comm, Nat.div_add_l by lia. rewrite Nat.div_small; lia. Qed.
Lemma mod_pos b j : j < 64 -> (64 * b + j) mod 64 = j.
Proof. intros H. rewrite Nat.add_comm, Nat.mul_comm, Nat.mod_add by lia. now apply Nat.mod_small. Qed.
Lemma sbit_pos s b j : j < 64 -> sbit s (64 * b + j) = tb (nth b s 0%N) j.
Proof. intros H. unfold sbit. now rewrite div_pos, mod_pos. Qed.

Lemma sbit_cons w s q : sbit (w :: s) (q + 64) = sbit s q.
Proof. unfold sbit. replace (q + 64) with (q + 1 * 64) by lia. rewrite Nat.div_add, Nat.mod_add by lia. now rewrite Nat.add_1_r. Qed.

(** ** Packing *)

(** A key: words and padding that hold the bits [K]. *)
Record key_ok (seq : list N) (pad : nat) (K : list bool) : Prop := {
  ko_pad : pad < 64;
  ko_len : length K + pad = 64 * length seq;
  ko_bit : forall p, sbit seq p = nth p K false;
  ko_words : forall w, In w seq -> word_ok w }.

Lemma loop_ok st : forall pos cur, pos < 64 -> (forall i, pos <= i -> tb cur i = false) ->
  let '(v, p) := state2Int_loop st pos cur in
  p < 64 /\ pos + length st + p = 64 * length v /\ (forall w, In w v -> word_ok w) /\
  (forall q, sbit v q = if Nat.ltb q pos then tb cur q else nth (q - pos) st false).
Proof.
  induction st as [|b st IH]; intros pos cur HP HC; cbn [state2Int_loop].
  - destruct pos as [|pos].
    + split; [lia|]. split; [reflexivity|]. split; [intros w []|]. intros q. cbn. unfold sbit. rewrite nth_overflow by (cbn [length]; lia). rewrite tb_0. now destruct (q - 0).
    + split; [lia|]. split; [cbn [length]; lia|]. split; [intros w [<-|[]] i Hi; apply HC; lia|]. intros q. unfold sbit.
      destruct (Nat.ltb_spec q (S pos)) as [L|L].
      * rewrite Nat.div_small, Nat.mod_small by lia. reflexivity.
      * assert (E : nth (q - S pos) (@nil bool) false = false) by now destruct (q - S pos). rewrite E.
        destruct (Nat.lt_ge_cases q 64).
        -- rewrite Nat.div_small, Nat.mod_small by lia. cbn. now apply HC.
        -- assert (1 <= q / 64) by (apply Nat.div_le_lower_bound; lia). rewrite nth_overflow by (cbn [length]; lia). apply tb_0.
  - set (cur' := if b then N.lor cur (N.shiftl 1 (N.of_nat pos)) else cur).
    assert (C1 : forall i, tb cur' i = if Nat.eqb i pos then b else tb cur i).
    { intros i. unfold cur'. destruct b.
      - rewrite tb_lor, tb_shift. destruct (Nat.eqb_spec i pos) as [->|]; [apply orb_true_r|apply orb_false_r].
      - destruct (Nat.eqb_spec i pos) as [->|]; [apply HC; lia|]. reflexivity. }
    assert (C2 : forall i, S pos <= i -> tb cur' i = false).
    { intros i Hi. rewrite C1. destruct (Nat.eqb_spec i pos); [lia|]. apply HC. lia. }
    destruct (Nat.eqb_spec (S pos) 64) as [E|NE].
    + specialize (IH 0 0%N ltac:(lia) ltac:(intros; apply tb_0)). destruct (state2Int_loop st 0 0%N) as [v p].
      destruct IH as (H1 & H2 & H3 & H4). split; auto. split; [cbn [length]; lia|]. split.
      { intros w [<-|Hw]; auto. intros i Hi. apply C2. lia. }
      intros q. destruct (Nat.lt_ge_cases q 64) as [L|L].
      * unfold sbit. rewrite Nat.div_small, Nat.mod_small by lia. cbn [nth]. rewrite C1.
        destruct (Nat.eqb_spec q pos) as [->|]; [|destruct (Nat.ltb_spec q pos); [auto|lia]].
        rewrite Nat.ltb_irrefl, Nat.sub_diag. reflexivity.
      * destruct (Nat.ltb_spec q pos); [lia|]. replace (q - pos) with (S (q - 64)) by lia. cbn [nth].
        specialize (H4 (q - 64)). rewrite Nat.sub_0_r in H4. cbn in H4. rewrite <- H4.
        rewrite <- (sbit_cons cur' v (q - 64)). f_equal. lia.
    + specialize (IH (S pos) cur' ltac:(lia) C2). destruct (state2Int_loop st (S pos) cur') as [v p].
      destruct IH as (H1 & H2 & H3 & H4). split; auto. split; [cbn [length]; lia|]. split; auto. intros q. rewrite H4.
      destruct (Nat.ltb_spec q (S pos)), (Nat.ltb_spec q pos); try lia.
      * rewrite C1. destruct (Nat.eqb_spec q pos); [lia|auto].
      * assert (q = pos) by lia. subst. rewrite C1, Nat.eqb_refl, Nat.sub_diag. reflexivity.
      * replace (q - pos) with (S (q - S pos)) by lia. reflexivity.
Qed.

Lemma state2Int_ok K v p : state2Int K = (v, p) -> key_ok v p K.
Proof.
  intros E. pose proof (loop_ok K 0 0%N ltac:(lia) ltac:(intros; apply tb_0)) as H. unfold state2Int in E. rewrite E in H.
  destruct H as (H1 & H2 & H3 & H4). split; auto. intros q. rewrite H4. cbn. now rewrite Nat.sub_0_r.
Qed.

Lemma key_inj seq pad K1 K2 : key_ok seq pad K1 -> key_ok seq pad K2 -> K1 = K2.
Proof.
  intros [_ L1 B1 _] [_ L2 B2 _]. apply nth_ext with (d := false) (d' := false); [lia|]. intros i _. now rewrite <- B1, <- B2.
Qed.

(** ** Nodes *)

(** Bit [p] of a node whose array starts with the word [first]. *)
Definition vbit (v : list N) (first p : nat) : bool := if Nat.ltb p (64 * first) then false else sbit v (p - 64 * first).

Lemma vbit_pos v first i j : j < 64 -> vbit v first (64 * (first + i) + j) = tb (nth i v 0%N) j.
Proof.
  intros H. unfold vbit. destruct (Nat.ltb_spec (64 * (first + i) + j) (64 * first)); [lia|].
  replace (64 * (first + i) + j - 64 * first) with (64 * i + j) by lia. now apply sbit_pos.
Qed.

(** The node holds the bits from position [a] up to (excluding) position [e]. *)
Record node_ok (a e blocks first igf igl : nat) (v : list N) : Prop := {
  nk_igf : igf < 64;
  nk_igl : igl < 64;
  nk_a : a = 64 * first + igf;
  nk_e : e + igl = 64 * (first + blocks);
  nk_le : a <= e;
  nk_0 : blocks = 0 -> igl = 0;
  nk_len : 0 < blocks -> length v = blocks;
  nk_words : 0 < blocks -> forall w, In w v -> word_ok w;
  nk_in : 0 < blocks -> forall p, vbit v first p = true -> a <= p < e }.

Lemma tb_nth_ok v i j : (forall w, In w v -> word_ok w) -> 64 <= j -> tb (nth i v 0%N) j = false.
Proof.
  intros H L. destruct (Nat.lt_ge_cases i (length v)) as [I|I].
  - apply H; auto. now apply nth_In.
  - rewrite nth_overflow by auto. apply tb_0.
Qed.

Lemma get_nth {A} (d : A) l i : i < length l -> get l i = Some (nth i l d).
Proof. intros H. unfold get. now apply nth_error_nth'. Qed.

Lemma kbit_lt seq pad K p : key_ok seq pad K -> sbit seq p = true -> p < length K.
Proof. intros KO H. rewrite (ko_bit _ _ _ KO) in H. destruct (Nat.lt_ge_cases p (length K)) as [|L]; auto. rewrite nth_overflow in H by auto. discriminate. Qed.

Section Node.
  Variables (a e blocks first igf igl : nat) (value : list N) (seq : list N) (pad : nat) (K : list bool).
  Hypothesis NO : node_ok a e blocks first igf igl value.
  Hypothesis KO : key_ok seq pad K.

  Let agree p := vbit value first p = sbit seq p.

  (** The comparison of one block. *)
  Lemma cmp_block i mf ml mp : i < blocks -> first + i < length seq -> ignore_first igf = Some mf -> ignore_last igl = Some ml -> ignore_last pad = Some mp ->
    let x0 := nth (first + i) seq 0%N in let y0 := nth i value 0%N in
    let x1 := if Nat.eqb i 0 then N.land x0 mf else x0 in
    let x2 := if Nat.eqb i (blocks - 1) then N.land x1 ml else x1 in
    let y1 := if Nat.eqb (first + i) (length seq - 1) then N.land y0 mp else y0 in
    x2 = y1 <-> (forall j, j < 64 -> a <= 64 * (first + i) + j < min e (length K) -> agree (64 * (first + i) + j)).
  Proof using NO KO.
    intros Li Ls E1 E2 E3 x0 y0 x1 x2 y1. destruct (first_some _ _ E1) as [_ M1]. destruct (last_some _ _ E2) as [_ M2]. destruct (last_some _ _ E3) as [_ M3].
    destruct NO as [G1 G2 G3 G4 G5 _ G7 G8 G9]. assert (B0 : 0 < blocks) by lia. specialize (G7 B0). specialize (G8 B0). specialize (G9 B0).
    pose proof (ko_len _ _ _ KO) as KL. pose proof (ko_pad _ _ _ KO) as KP.
    assert (X : forall j, j < 64 -> tb x2 j = andb (sbit seq (64 * (first + i) + j)) (andb (Nat.leb a (64 * (first + i) + j)) (Nat.ltb (64 * (first + i) + j) e))).
    { intros j Lj. rewrite sbit_pos by auto. fold x0.
      assert (X1 : tb x1 j = andb (tb x0 j) (Nat.leb a (64 * (first + i) + j))).
      { unfold x1. destruct (Nat.eqb_spec i 0) as [->|N].
        - rewrite tb_land, M1. f_equal. destruct (Nat.leb_spec igf j), (Nat.ltb_spec j 64), (Nat.leb_spec a (64 * (first + 0) + j)); auto; lia.
        - destruct (Nat.leb_spec a (64 * (first + i) + j)); [now rewrite andb_true_r|lia]. }
      unfold x2. destruct (Nat.eqb_spec i (blocks - 1)) as [->|N].
      - rewrite tb_land, M2, X1, <- andb_assoc. f_equal. f_equal.
        destruct (Nat.ltb_spec j (64 - igl)), (Nat.ltb_spec (64 * (first + (blocks - 1)) + j) e); auto; lia.
      - rewrite X1. destruct (Nat.ltb_spec (64 * (first + i) + j) e); [now rewrite andb_true_r|lia]. }
    assert (Y : forall j, j < 64 -> tb y1 j = andb (vbit value first (64 * (first + i) + j)) (Nat.ltb (64 * (first + i) + j) (length K))).
    { intros j Lj. rewrite vbit_pos by auto. fold y0. unfold y1. destruct (Nat.eqb_spec (first + i) (length seq - 1)) as [E|N].
      - rewrite tb_land, M3. f_equal. destruct (Nat.ltb_spec j (64 - pad)), (Nat.ltb_spec (64 * (first + i) + j) (length K)); auto; lia.
      - destruct (Nat.ltb_spec (64 * (first + i) + j) (length K)); [now rewrite andb_true_r|lia]. }
    assert (XH : forall j, 64 <= j -> tb x2 j = false).
    { intros j Lj. assert (tb x0 j = false) by (apply tb_nth_ok; auto; apply KO).
      unfold x2, x1. destruct (Nat.eqb i 0), (Nat.eqb i (blocks - 1)); rewrite ?tb_land, ?H; auto. }
    assert (YH : forall j, 64 <= j -> tb y1 j = false).
    { intros j Lj. assert (tb y0 j = false) by (apply tb_nth_ok; auto).
      unfold y1. destruct (Nat.eqb (first + i) (length seq - 1)); rewrite ?tb_land; fold y0; rewrite H; reflexivity. }
    split.
    - intros E j Lj R. unfold agree. assert (Q := f_equal (fun w => tb w j) E). cbn beta in Q. rewrite X, Y in Q by auto.
      destruct (Nat.leb_spec a (64 * (first + i) + j)); [|lia]. destruct (Nat.ltb_spec (64 * (first + i) + j) e); [|lia].
      destruct (Nat.ltb_spec (64 * (first + i) + j) (length K)); [|lia]. rewrite !andb_true_r in Q. auto.
    - intros H. apply tb_ext. intros j. destruct (Nat.lt_ge_cases j 64) as [Lj|Lj]; [|now rewrite XH, YH].
      rewrite X, Y by auto. specialize (H j Lj). set (p := 64 * (first + i) + j) in *.
      destruct (Nat.leb_spec a p) as [A1|A1]; cbn [andb].
      2:{ rewrite andb_false_r. destruct (vbit value first p) eqn:V; auto. apply G9 in V. lia. }
      destruct (Nat.ltb_spec p e) as [A2|A2].
      2:{ rewrite andb_false_r. destruct (vbit value first p) eqn:V; auto. apply G9 in V. lia. }
      rewrite andb_true_r. destruct (Nat.ltb_spec p (length K)) as [A3|A3].
      + rewrite andb_true_r. symmetry. apply H. lia.
      + rewrite andb_false_r. rewrite (ko_bit _ _ _ KO). now apply nth_overflow.
  Qed.

  Lemma first_diff_ok : forall k i, i + k = blocks ->
    (forall p, p < 64 * (first + i) -> a <= p < min e (length K) -> agree p) ->
    exists r, first_diff k i blocks first igf igl value seq pad = Some r /\
      match r with
      | None => forall p, a <= p < min e (length K) -> agree p
      | Some i' => i' < blocks /\ first + i' < length seq /\ (exists j, j < 64 /\ a <= 64 * (first + i') + j < min e (length K) /\ ~ agree (64 * (first + i') + j)) /\
          (forall p, p < 64 * (first + i') -> a <= p < min e (length K) -> agree p)
      end.
  Proof using NO KO.
    pose proof (ko_len _ _ _ KO) as KL. pose proof (ko_pad _ _ _ KO) as KP.
    induction k as [|k IH]; intros i E B; cbn [first_diff].
    - exists None. split; auto. intros p R. apply B; auto. pose proof (nk_e _ _ _ _ _ _ _ NO). lia.
    - destruct (Nat.leb_spec (length seq) (first + i)) as [L|L].
      + exists None. split; auto. intros p R. apply B; auto. lia.
      + rewrite (get_nth 0%N) by auto. cbn [obind].
        destruct (first_def igf) as (mf & E1); [apply NO|]. rewrite E1. cbn [obind].
        destruct (last_def igl) as (ml & E2); [pose proof (nk_igl _ _ _ _ _ _ _ NO); lia|]. rewrite E2. cbn [obind].
        rewrite (get_nth 0%N value) by (rewrite (nk_len _ _ _ _ _ _ _ NO); lia). cbn [obind].
        destruct (last_def pad) as (mp & E3); [lia|]. rewrite E3. cbn [obind].
        pose proof (cmp_block i mf ml mp ltac:(lia) L E1 E2 E3) as C. cbv zeta in C.
        match goal with |- context [N.eqb ?X ?Y] => destruct (N.eqb_spec X Y) as [Q|Q] end.
        * apply IH; [lia|]. intros p Lp R. destruct (Nat.lt_ge_cases p (64 * (first + i))) as [|G]; [now apply B|].
          replace p with (64 * (first + i) + (p - 64 * (first + i))) by lia. apply (proj1 C Q); lia.
        * exists (Some i). split; auto. split; [lia|]. split; auto. split; auto.
          destruct (forallb (fun j => orb (Bool.eqb (vbit value first (64 * (first + i) + j)) (sbit seq (64 * (first + i) + j)))
                     (orb (Nat.ltb (64 * (first + i) + j) a) (Nat.leb (min e (length K)) (64 * (first + i) + j)))) (List.seq 0 64)) eqn:F.
          -- elim Q. apply C. intros j Lj R. rewrite forallb_forall in F. specialize (F j ltac:(apply in_seq; lia)).
             apply orb_true_iff in F as [F|F]; [now apply eqb_prop|]. apply orb_true_iff in F as [F|F]; [apply Nat.ltb_lt in F|apply Nat.leb_le in F]; lia.
          -- assert (X : exists j, In j (List.seq 0 64) /\ orb (Bool.eqb (vbit value first (64 * (first + i) + j)) (sbit seq (64 * (first + i) + j)))
                     (orb (Nat.ltb (64 * (first + i) + j) a) (Nat.leb (min e (length K)) (64 * (first + i) + j))) = false).
             { clear - F. revert F. generalize (List.seq 0 64) as l. induction l as [|x l IH]; [discriminate|]. intros F. cbn [forallb] in F.
               apply andb_false_iff in F as [F|F]; [exists x; split; [now left|exact F]|]. destruct (IH F) as (j & I & Q). exists j. split; [now right|auto]. }
             destruct X as (j & I & X). apply in_seq in I. apply orb_false_iff in X as [X1 X2]. apply orb_false_iff in X2 as [X2 X3].
             apply Nat.ltb_ge in X2. apply Nat.leb_gt in X3. exists j. split; [lia|]. split; [lia|]. unfold agree. apply eqb_false_iff in X1. auto.
  Qed.

  Lemma diff_bit_ok x y : forall k j, (exists i, j <= i < j + k /\ tb x i <> tb y i) ->
    exists i, diff_bit k j x y = Some i /\ j <= i < j + k /\ tb x i <> tb y i /\ forall i', j <= i' < i -> tb x i' = tb y i'.
  Proof.
    induction k as [|k IH]; intros j (i & R & D); [lia|]. cbn [diff_bit]. fold (tb x j). fold (tb y j). destruct (Bool.eqb (tb x j) (tb y j)) eqn:E.
    - apply eqb_prop in E. destruct (IH (S j)) as (i2 & E2 & R2 & D2 & M); [exists i; split; auto; assert (i <> j) by congruence; lia|].
      exists i2. split; auto. split; [lia|]. split; auto. intros i' H. destruct (Nat.eq_dec i' j) as [->|]; auto. apply M. lia.
    - apply eqb_false_iff in E. exists j. split; auto. split; [lia|]. split; auto. intros. lia.
  Qed.
End Node.

(** Masking one word. *)
Lemma mask_at_ok i m v : i < length v -> exists v', mask_at i m v = Some v' /\ length v' = length v /\ nth i v' 0%N = N.land (nth i v 0%N) m /\
  (forall k, k <> i -> nth k v' 0%N = nth k v 0%N).
Proof.
  intros L. unfold mask_at. rewrite (get_nth 0%N) by auto. cbn [obind]. destruct (set_some v i (N.land (nth i v 0%N) m) L) as (v' & E).
  exists v'. split; auto. split; [now apply set_length in E|]. split.
  - apply get_set_eq in E. unfold get in E. now apply nth_error_nth.
  - intros k NE. destruct (Nat.lt_ge_cases k (length v)) as [Lk|Lk].
    + apply (get_set_neq _ _ k) in E; auto. rewrite (get_nth 0%N v) in E by auto. unfold get in E. now apply nth_error_nth.
    + apply set_length in E. now rewrite !nth_overflow by lia.
Qed.

Lemma nth_skipn {A} (l : list A) n i d : nth i (skipn n l) d = nth (n + i) l d.
Proof. revert l; induction n as [|n IH]; intros l; cbn; auto. destruct l; [now destruct i|]. apply IH. Qed.
Lemma nth_firstn {A} (l : list A) n i d : i < n -> nth i (firstn n l) d = nth i l d.
Proof. revert l i; induction n as [|n IH]; intros l i H; [lia|]. destruct l; cbn; auto. destruct i; auto. apply IH. lia. Qed.

Lemma words_in v : (forall i, word_ok (nth i v 0%N)) -> forall w, In w v -> word_ok w.
Proof. intros H w I. apply (In_nth _ _ 0%N) in I as (i & _ & <-). apply H. Qed.
Lemma words_nth v i : (forall w, In w v -> word_ok w) -> word_ok (nth i v 0%N).
Proof. intros H j Lj. now apply tb_nth_ok. Qed.
Lemma word_land x m : word_ok x -> word_ok (N.land x m).
Proof. intros H j Lj. rewrite tb_land, H by auto. reflexivity. Qed.

(** The bits of a node, block by block. *)
Lemma vbit_block v first p : vbit v first p = if Nat.ltb p (64 * first) then false else tb (nth (p / 64 - first) v 0%N) (p mod 64).
Proof.
  unfold vbit. destruct (Nat.ltb_spec p (64 * first)) as [|L]; auto. unfold sbit.
  rewrite (pos_eq p) at 1 2. assert (first <= p / 64) by (apply Nat.div_le_lower_bound; lia).
  replace (64 * (p / 64) + p mod 64 - 64 * first) with (64 * (p / 64 - first) + p mod 64) by lia.
  rewrite div_pos, mod_pos by apply pos_mod. reflexivity.
Qed.

Lemma split_ok {A} a e blocks first igf igl value (pay : option A) zero one q :
  node_ok a e blocks first igf igl value -> a <= q < e ->
  exists bl il v cv, split_at pay blocks first igl value zero one (q / 64 - first) (q mod 64) =
      Some (bl, il, v, if vbit value first q then TNil else TNode pay (blocks - (q / 64 - first)) (q / 64) (q mod 64) igl cv zero one,
                       if vbit value first q then TNode pay (blocks - (q / 64 - first)) (q / 64) (q mod 64) igl cv zero one else TNil) /\
    node_ok a q bl first igf il v /\ (forall p, a <= p < q -> vbit v first p = vbit value first p) /\
    node_ok q e (blocks - (q / 64 - first)) (q / 64) (q mod 64) igl cv /\ (forall p, q <= p < e -> vbit cv (q / 64) p = vbit value first p).
Proof.
  intros NO R. destruct NO as [G1 G2 G3 G4 G5 G0 G7 G8 G9].
  pose proof (pos_eq q) as PQ. pose proof (pos_mod q) as MQ. set (b := q / 64) in *. set (j := q mod 64) in *.
  assert (F1 : first <= b) by lia. assert (F2 : b - first < blocks) by lia. assert (B0 : 0 < blocks) by lia.
  specialize (G7 B0). specialize (G8 B0). specialize (G9 B0).
  unfold split_at. rewrite (proj2 (Nat.ltb_lt _ _) F2).
  destruct (first_def j MQ) as (mf & E1). rewrite E1. cbn [obind]. destruct (first_some _ _ E1) as [_ M1].
  destruct (mask_at_ok 0 mf (skipn (b - first) value)) as (cv & E2 & L2 & H2 & N2); [rewrite skipn_length; lia|].
  rewrite E2. cbn [obind]. rewrite (get_nth 0%N cv) by (rewrite L2, skipn_length; lia). cbn [obind].
  destruct (bit_def j MQ) as (bm & E3). rewrite E3. cbn [obind]. destruct (bit_some _ _ E3) as [_ M3].
  rewrite M3.
  assert (HB : tb (nth 0 cv 0%N) j = vbit value first q).
  { rewrite H2, nth_skipn, Nat.add_0_r, tb_land, M1. rewrite Nat.leb_refl, (proj2 (Nat.ltb_lt _ _) MQ), andb_true_r.
    rewrite PQ. replace (64 * b + j) with (64 * (first + (b - first)) + j) by lia. now rewrite vbit_pos. }
  rewrite HB.
  set (il := if Nat.eqb (64 - j) 64 then 0 else 64 - j). set (bl := if Nat.eqb j 0 then b - first else S (b - first)).
  assert (IL : il < 64 /\ il <= 64 /\ q + il = 64 * (first + bl) /\ (bl = 0 -> il = 0)).
  { unfold il, bl. destruct (Nat.eqb_spec j 0), (Nat.eqb_spec (64 - j) 64); lia. }
  destruct IL as (IL1 & IL2 & IL3 & IL4).
  (* the child *)
  assert (CV : forall p, q <= p < e -> vbit cv b p = vbit value first p).
  { intros p Rp. rewrite !vbit_block. assert (D : b <= p / 64) by (unfold b; apply Nat.div_le_mono; lia).
    pose proof (pos_eq p) as PP. pose proof (pos_mod p).
    destruct (Nat.ltb_spec p (64 * b)); [lia|]. destruct (Nat.ltb_spec p (64 * first)); [lia|].
    destruct (Nat.eq_dec (p / 64) b) as [E|NE].
    - rewrite E, Nat.sub_diag, H2, nth_skipn, Nat.add_0_r, tb_land, M1.
      destruct (Nat.leb_spec j (p mod 64)); [|lia]. destruct (Nat.ltb_spec (p mod 64) 64); [|lia]. apply andb_true_r.
    - rewrite N2 by lia. rewrite nth_skipn. f_equal. f_equal. lia. }
  assert (CI : forall p, vbit cv b p = true -> q <= p < e).
  { intros p. rewrite vbit_block. destruct (Nat.ltb_spec p (64 * b)) as [|Lp]; [discriminate|]. pose proof (pos_eq p) as PP. pose proof (pos_mod p).
    assert (D : b <= p / 64) by (apply Nat.div_le_lower_bound; lia).
    assert (V : tb (nth (p / 64 - first) value 0%N) (p mod 64) = true -> a <= p < e).
    { intros T. apply G9. rewrite vbit_block. destruct (Nat.ltb_spec p (64 * first)); [lia|auto]. }
    destruct (Nat.eq_dec (p / 64) b) as [E|NE].
    - rewrite E, Nat.sub_diag, H2, nth_skipn, Nat.add_0_r, tb_land, M1. intros T. apply andb_true_iff in T as [T1 T2]. apply andb_true_iff in T2 as [T2 _].
      apply Nat.leb_le in T2. rewrite <- E in T1. apply V in T1. lia.
    - rewrite N2 by lia. rewrite nth_skipn. replace (b - first + (p / 64 - b)) with (p / 64 - first) by lia. intros T. apply V in T.
      assert (b < p / 64) by lia. lia. }
  assert (CN : node_ok q e (blocks - (b - first)) b j igl cv).
  { split; auto; try lia.
    - intros _. rewrite L2, skipn_length. lia.
    - intros _. apply words_in. intros i. destruct i as [|i].
      + rewrite H2. apply word_land. rewrite nth_skipn. now apply words_nth.
      + rewrite N2 by lia. rewrite nth_skipn. now apply words_nth. }
  assert (X : exists v, (if Nat.eqb bl 0 then Some value else ml <- ignore_last il ;; mask_at (bl - 1) ml (firstn bl value)) = Some v /\
                node_ok a q bl first igf il v /\ (forall p, a <= p < q -> vbit v first p = vbit value first p)).
  { destruct (Nat.eqb_spec bl 0) as [Z|NZ].
    - exists value. split; auto. split; [|auto]. split; auto; try lia.
    - destruct (last_def il IL2) as (ml & E4). rewrite E4. cbn [obind]. destruct (last_some _ _ E4) as [_ M4].
      assert (LB : bl <= blocks) by (unfold bl; destruct (Nat.eqb j 0); lia).
      assert (LF : length (firstn bl value) = bl) by (rewrite firstn_length; lia).
      destruct (mask_at_ok (bl - 1) ml (firstn bl value)) as (v & E5 & L5 & H5 & N5); [lia|].
      assert (BITS : forall p, vbit v first p = if Nat.ltb p q then vbit value first p else false).
      { intros p. rewrite !vbit_block. destruct (Nat.ltb_spec p (64 * first)) as [|Lp]; [now destruct (Nat.ltb p q)|].
        pose proof (pos_eq p) as PP. pose proof (pos_mod p). assert (D : first <= p / 64) by (apply Nat.div_le_lower_bound; lia).
        destruct (Nat.eq_dec (p / 64 - first) (bl - 1)) as [E|NE].
        - rewrite E, H5, tb_land, M4, nth_firstn by lia. destruct (Nat.ltb_spec (p mod 64) (64 - il)), (Nat.ltb_spec p q); rewrite ?andb_true_r, ?andb_false_r; auto; lia.
        - rewrite N5 by auto. destruct (Nat.lt_ge_cases (p / 64 - first) bl) as [Lb|Lb].
          + rewrite nth_firstn by auto. destruct (Nat.ltb_spec p q); auto. lia.
          + rewrite nth_overflow by (rewrite LF; lia). rewrite tb_0. destruct (Nat.ltb_spec p q); auto. lia. }
      exists v. split; auto. split.
      + split; auto; try lia.
        * intros _. apply words_in. intros i. destruct (Nat.eq_dec i (bl - 1)) as [->|NE].
          -- rewrite H5. apply word_land. rewrite nth_firstn by lia. now apply words_nth.
          -- rewrite N5 by auto. destruct (Nat.lt_ge_cases i bl); [rewrite nth_firstn by auto; now apply words_nth|].
             rewrite nth_overflow by lia. intros i' _. apply tb_0.
        * intros _ p. rewrite BITS. destruct (Nat.ltb_spec p q); [|discriminate]. intros T. apply G9 in T. lia.
      + intros p Rp. rewrite BITS. destruct (Nat.ltb_spec p q); [auto|lia]. }
  destruct X as (v & EV & NV & BV). rewrite EV. cbn [obind].
  replace (first + (b - first)) with b by lia.
  exists bl, il, v, cv. split; [destruct (vbit value first q); reflexivity|]. auto.
Qed.

Lemma sub_ok {A} (acc : option A -> option A) seq pad K q : key_ok seq pad K -> q < length K ->
  exists v, t_sub acc seq (q / 64) (q mod 64) pad = Some (TNode (acc None) (length seq - q / 64) (q / 64) (q mod 64) pad v TNil TNil) /\
    node_ok q (length K) (length seq - q / 64) (q / 64) (q mod 64) pad v /\ (forall p, q <= p < length K -> vbit v (q / 64) p = sbit seq p).
Proof.
  intros KO L. destruct KO as [K1 K2 K3 K4]. pose proof (pos_eq q) as PQ. pose proof (pos_mod q) as MQ. set (b := q / 64) in *. set (j := q mod 64) in *.
  assert (B : b < length seq) by lia. unfold t_sub. destruct (first_def j MQ) as (mf & E1). rewrite E1. cbn [obind]. destruct (first_some _ _ E1) as [_ M1].
  destruct (mask_at_ok 0 mf (skipn b seq)) as (v & E2 & L2 & H2 & N2); [rewrite skipn_length; lia|]. rewrite E2. cbn [obind].
  exists v. split; auto.
  assert (BITS : forall p, vbit v b p = if Nat.ltb p q then false else sbit seq p).
  { intros p. rewrite vbit_block. pose proof (pos_eq p) as PP. pose proof (pos_mod p). destruct (Nat.ltb_spec p (64 * b)) as [|Lp]; [destruct (Nat.ltb_spec p q); auto; lia|].
    assert (D : b <= p / 64) by (apply Nat.div_le_lower_bound; lia). unfold sbit. destruct (Nat.eq_dec (p / 64) b) as [E|NE].
    - rewrite E, Nat.sub_diag, H2, tb_land, M1, nth_skipn, Nat.add_0_r.
      destruct (Nat.leb_spec j (p mod 64)), (Nat.ltb_spec (p mod 64) 64), (Nat.ltb_spec p q); rewrite ?andb_true_r, ?andb_false_r; auto; lia.
    - rewrite N2 by lia. rewrite nth_skipn. replace (b + (p / 64 - b)) with (p / 64) by lia. destruct (Nat.ltb_spec p q); auto. lia. }
  split.
  - split; auto; try lia.
    + intros _. rewrite L2, skipn_length. lia.
    + intros _. apply words_in. intros i. destruct i as [|i].
      * rewrite H2. apply word_land. rewrite nth_skipn. now apply words_nth.
      * rewrite N2 by lia. rewrite nth_skipn. now apply words_nth.
    + intros _ p. rewrite BITS. destruct (Nat.ltb_spec p q); [discriminate|]. intros T. split; auto.
      apply (kbit_lt seq pad K); auto. now split.
  - intros p R. rewrite BITS. destruct (Nat.ltb_spec p q); [lia|auto].
Qed.

(** ** The trie as a map *)
Section Map.
  Context {A : Type}.

  Definition t_end (blocks first igl : nat) : nat := 64 * (first + blocks) - igl.
  Definition agreeb (v : list N) (first a b : nat) (K : list bool) : bool :=
    forallb (fun p => Bool.eqb (vbit v first p) (nth p K false)) (List.seq a (b - a)).

  Lemma agreeb_spec v first a b K : agreeb v first a b K = true <-> (forall p, a <= p < b -> vbit v first p = nth p K false).
  Proof.
    unfold agreeb. rewrite forallb_forall. split.
    - intros H p R. apply eqb_prop. apply H. apply in_seq. lia.
    - intros H p I. apply in_seq in I. rewrite H by lia. apply eqb_reflx.
  Qed.
  Lemma agreeb_ext v first v' first' a b K K' : (forall p, a <= p < b -> vbit v first p = vbit v' first' p) -> (forall p, a <= p < b -> nth p K false = nth p K' false) ->
    agreeb v first a b K = agreeb v' first' a b K'.
  Proof.
    intros H1 H2. apply eq_true_iff_eq. rewrite !agreeb_spec. split; intros H p R.
    - rewrite <- H1, <- H2 by auto. now apply H.
    - rewrite H1, H2 by auto. now apply H.
  Qed.
  Lemma agreeb_split v first a q b K : a <= q <= b -> agreeb v first a b K = andb (agreeb v first a q K) (agreeb v first q b K).
  Proof.
    intros R. apply eq_true_iff_eq. rewrite andb_true_iff, !agreeb_spec. split.
    - intros H. split; intros; apply H; lia.
    - intros [H1 H2] p P. destruct (Nat.lt_ge_cases p q); [apply H1|apply H2]; lia.
  Qed.

  (** The payload stored for the key [K] in a trie whose first bit has position [a]. *)
  Fixpoint find (t : trie A) (a : nat) (K : list bool) : option A :=
    match t with
    | TNil => None
    | TNode pay blocks first igf igl value zero one =>
        let e := t_end blocks first igl in
        if agreeb value first a (min e (length K)) K then
          if Nat.eqb (length K) e then pay
          else if Nat.ltb (length K) e then None
          else find (if nth e K false then one else zero) e K
        else None
    end.

  Definition starts (a : nat) (b : bool) (t : trie A) : Prop :=
    match t with
    | TNil => True
    | TNode pay blocks first igf igl value zero one => a < t_end blocks first igl /\ vbit value first a = b
    end.

  Inductive twf : nat -> trie A -> Prop :=
  | twf_nil : forall a, twf a TNil
  | twf_node : forall a e pay blocks first igf igl value zero one,
      node_ok a e blocks first igf igl value -> twf e zero -> twf e one -> starts e false zero -> starts e true one ->
      twf a (TNode pay blocks first igf igl value zero one).

  Lemma end_eq a e blocks first igf igl v : node_ok a e blocks first igf igl v -> t_end blocks first igl = e.
  Proof. intros [_ _ _ H _ _ _ _ _]. unfold t_end. lia. Qed.

  (** Every node leads to a stored payload. *)
  Fixpoint tfull (t : trie A) : Prop :=
    match t with
    | TNil => True
    | TNode pay _ _ _ _ _ zero one => (pay <> None \/ zero <> TNil \/ one <> TNil) /\ tfull zero /\ tfull one
    end.

  Lemma full_find t : forall a P, twf a t -> t <> TNil -> tfull t -> length P = a ->
    exists K, find t a K <> None /\ firstn a K = P /\ match t with TNil => True | TNode _ blocks first _ igl value _ _ =>
      t_end blocks first igl <= length K /\ forall p, a <= p < t_end blocks first igl -> nth p K false = vbit value first p end.
  Proof.
    induction t as [|pay blocks first igf igl value zero IHz one IHo]; intros a P W NN F LP; [easy|]. inversion W as [|a' e ? ? ? ? ? ? ? ? NO W0 W1 S0 S1]; subst.
    pose proof (end_eq _ _ _ _ _ _ _ NO) as EE. cbn [find]. rewrite EE. destruct F as (F & F0 & F1). pose proof (nk_le _ _ _ _ _ _ _ NO) as LE.
    set (Q := P ++ map (vbit value first) (List.seq (length P) (e - length P))).
    assert (LQ : length Q = e) by (unfold Q; rewrite app_length, map_length, seq_length; lia).
    assert (BQ : forall p, length P <= p < e -> nth p Q false = vbit value first p).
    { intros p R. unfold Q. rewrite app_nth2 by lia. rewrite (nth_indep _ false (vbit value first 0)) by (rewrite map_length, seq_length; lia).
      rewrite map_nth, seq_nth by lia. f_equal. lia. }
    assert (FQ : firstn (length P) Q = P). { unfold Q. rewrite firstn_app, Nat.sub_diag, firstn_all. cbn. apply app_nil_r. }
    assert (REC : forall c (b : bool), (b = true -> c = one) -> (b = false -> c = zero) -> c <> TNil ->
              (exists K, find c e K <> None /\ firstn e K = Q /\ match c with TNil => True | TNode _ bl fi _ il va _ _ =>
      t_end bl fi il <= length K /\ forall p, e <= p < t_end bl fi il -> nth p K false = vbit va fi p end) ->
      exists K, (if agreeb value first (length P) (min e (length K)) K then if Nat.eqb (length K) e then pay else if Nat.ltb (length K) e then None
           else find (if nth e K false then one else zero) e K else None) <> None /\ firstn (length P) K = P /\
         e <= length K /\ forall p, length P <= p < e -> nth p K false = vbit value first p).
    { intros c b C1 C2 NC (K & FK & PK & MK). exists K.
      assert (ST : e < length K /\ nth e K false = b).
      { destruct c as [|pay' bl fi gf il va z o]; [easy|]. destruct MK as [M1 M2].
        assert (SB : starts e b (TNode pay' bl fi gf il va z o)) by (destruct b; [rewrite C1|rewrite C2]; auto).
        destruct SB as [Q1 Q2]. split; [lia|]. rewrite M2 by lia. auto. }
      destruct ST as [S2 S3]. assert (BK : forall p, p < e -> nth p K false = nth p Q false). { intros p R. rewrite <- PK. now rewrite nth_firstn. }
      split.
      - rewrite (proj2 (agreeb_spec _ _ _ _ _)).
        2:{ intros p R. rewrite BK, BQ by lia. auto. }
        destruct (Nat.eqb_spec (length K) e); [lia|]. destruct (Nat.ltb_spec (length K) e); [lia|]. rewrite S3.
        destruct b; [rewrite <- C1|rewrite <- C2]; auto.
      - split; [|split; [lia|]].
        + transitivity (firstn (length P) Q); [|exact FQ]. rewrite <- PK, firstn_firstn. f_equal. lia.
        + intros p R. rewrite BK, BQ by lia. auto. }
    destruct F as [F|[F|F]].
    - exists Q. split; [|split; [auto|]].
      + rewrite (proj2 (agreeb_spec _ _ _ _ _)). 2:{ intros p R. symmetry. apply BQ. lia. }
        rewrite LQ, Nat.eqb_refl. auto.
      + split; [lia|]. intros p R. apply BQ. lia.
    - apply (REC zero false); auto. discriminate.
    - apply (REC one true); auto. discriminate.
  Qed.

  (** Keys that agree from position [a] on. *)
  Definition same_from (a : nat) (K K' : list bool) : Prop := length K' = length K /\ forall p, a <= p < length K -> nth p K' false = nth p K false.

  Lemma find_same a K K' t : twf a t -> same_from a K K' -> find t a K' = find t a K.
  Proof.
    intros W. revert K K'. induction W as [a|a e pay blocks first igf igl value zero one NO W0 IH0 W1 IH1 S0 S1]; intros K K' [SL SB]; auto.
    cbn [find]. rewrite (end_eq _ _ _ _ _ _ _ NO), SL. rewrite (agreeb_ext value first value first a (min e (length K)) K' K); auto.
    2:{ intros p R. apply SB. lia. }
    destruct (agreeb _ _ _ _ _); auto. destruct (Nat.eqb_spec (length K) e); auto. destruct (Nat.ltb_spec (length K) e); auto.
    pose proof (nk_le _ _ _ _ _ _ _ NO). rewrite SB by lia. destruct (nth e K false); [apply IH1|apply IH0]; split; auto; intros p R; apply SB; lia.
  Qed.

  (** Splitting a node does not change the map. *)
  Lemma find_split a e q blocks first igf igl value pay zero one bl il v cv K :
    node_ok a e blocks first igf igl value -> a <= q < e -> node_ok a q bl first igf il v -> (forall p, a <= p < q -> vbit v first p = vbit value first p) ->
    node_ok q e (blocks - (q / 64 - first)) (q / 64) (q mod 64) igl cv -> (forall p, q <= p < e -> vbit cv (q / 64) p = vbit value first p) ->
    find (TNode None bl first igf il v
            (if vbit value first q then TNil else TNode pay (blocks - (q / 64 - first)) (q / 64) (q mod 64) igl cv zero one)
            (if vbit value first q then TNode pay (blocks - (q / 64 - first)) (q / 64) (q mod 64) igl cv zero one else TNil)) a K
    = find (TNode pay blocks first igf igl value zero one) a K.
  Proof.
    intros N0 R N1 B1 N2 B2. cbn [find]. rewrite (end_eq _ _ _ _ _ _ _ N0), (end_eq _ _ _ _ _ _ _ N1).
    set (n := length K). destruct (Nat.le_gt_cases n q) as [L|L].
    - replace (min q n) with n by lia. replace (min e n) with n by lia.
      rewrite (agreeb_ext v first value first a n K K); auto. 2:{ intros p P. apply B1. lia. }
      destruct (agreeb value first a n K); auto. destruct (Nat.eqb_spec n q) as [E|NE].
      + destruct (Nat.eqb_spec n e); [lia|]. destruct (Nat.ltb_spec n e); [auto|lia].
      + destruct (Nat.ltb_spec n q); [|lia]. destruct (Nat.eqb_spec n e); [lia|]. destruct (Nat.ltb_spec n e); [auto|lia].
    - replace (min q n) with q by lia. rewrite (agreeb_split value first a q (min e n)) by lia.
      rewrite (agreeb_ext v first value first a q K K); auto. destruct (agreeb value first a q K); auto. cbn [andb].
      destruct (Nat.eqb_spec n q); [lia|]. destruct (Nat.ltb_spec n q); [lia|].
      assert (HC : agreeb value first q (min e n) K = true -> nth q K false = vbit value first q).
      { intros HH. symmetry. apply (proj1 (agreeb_spec _ _ _ _ _) HH). lia. }
      assert (FC : forall zz oo : trie A, find (TNode pay (blocks - (q / 64 - first)) (q / 64) (q mod 64) igl cv zz oo) q K =
         if agreeb value first q (min e n) K then if Nat.eqb n e then pay else if Nat.ltb n e then None else find (if nth e K false then oo else zz) e K else None).
      { intros zz oo. cbn [find]. rewrite (end_eq _ _ _ _ _ _ _ N2). fold n. rewrite (agreeb_ext cv (q / 64) value first q (min e n) K K); auto. intros p P. apply B2. lia. }
      destruct (vbit value first q) eqn:V; destruct (nth q K false) eqn:KQ; rewrite ?FC; auto.
      + destruct (agreeb value first q (min e n) K); auto. discriminate (HC eq_refl).
      + destruct (agreeb value first q (min e n) K); auto. discriminate (HC eq_refl).
  Qed.
End Map.

(** ** Insertion *)
Section Insert.
  Context {A : Type}.
  Variables (acc : option A -> option A) (seq : list N) (pad : nat) (K : list bool).
  Hypothesis KO : key_ok seq pad K.

  Definition post (a : nat) (t : trie A) (res : option (trie A * option A)) : Prop :=
    match res with
    | Some (t', old) => t' <> TNil /\ twf a t' /\ old = find t a K /\ find t' a K = acc (find t a K) /\
        (forall K', ~ same_from a K K' -> find t' a K' = find t a K') /\
        (forall b, starts a b t -> a < length K -> nth a K false = b -> starts a b t') /\
        ((forall o, acc o <> None) -> tfull t -> tfull t')
    | None => pad = 0 /\ (tfull t -> forall P, length P = a -> exists K', firstn a K' = P /\ find t a K' <> None /\ length K < length K' /\
        forall p, a <= p < length K -> nth p K' false = nth p K false)
    end.

  Lemma post_transfer a t1 t r : post a t1 r -> (forall K', find t1 a K' = find t a K') ->
    (forall b, starts a b t -> a < length K -> nth a K false = b -> starts a b t1) -> (tfull t -> tfull t1) -> post a t r.
  Proof.
    intros H F S T. destruct r as [[t' old]|]; cbn in H |- *.
    - destruct H as (H1 & H2 & H3 & H4 & H5 & H6 & H7). rewrite F in H3, H4. split; auto. split; auto. split; auto. split; auto. split.
      + intros K' N. rewrite <- F. auto.
      + split; auto.
    - destruct H as [H1 H2]. split; auto. intros FT P LP. destruct (H2 (T FT) P LP) as (K' & Q1 & Q2 & Q3). exists K'. rewrite <- F. auto.
  Qed.

  (** The key ends with this node. *)
  Lemma here a pay blocks first igf igl value zero one : twf a (TNode pay blocks first igf igl value zero one) -> t_end blocks first igl = length K ->
    (forall p, a <= p < length K -> vbit value first p = nth p K false) ->
    post a (TNode pay blocks first igf igl value zero one) (Some (TNode (acc pay) blocks first igf igl value zero one, pay)).
  Proof using.
    intros W E B. inversion W as [|? e ? ? ? ? ? ? ? ? NO W0 W1 S0 S1]; subst. cbn [post find]. rewrite E, Nat.min_id.
    rewrite (proj2 (agreeb_spec _ _ _ _ _) B), Nat.eqb_refl. split; [discriminate|]. split; [econstructor; eauto|]. split; auto. split; auto. split.
    - intros K' N. destruct (agreeb value first a (min (length K) (length K')) K') eqn:G; auto. destruct (Nat.eqb_spec (length K') (length K)) as [EL|NE]; auto.
      elim N. split; auto. intros p R. rewrite <- B by auto. symmetry. apply (proj1 (agreeb_spec _ _ _ _ _) G). lia.
    - split; auto. intros NN (F & F0 & F1). split; auto.
  Qed.

  (** A fresh leaf. *)
  Lemma leaf a v b : a < length K -> nth a K false = b ->
    node_ok a (length K) (length seq - a / 64) (a / 64) (a mod 64) pad v -> (forall p, a <= p < length K -> vbit v (a / 64) p = sbit seq p) ->
    post a TNil (Some (TNode (acc None) (length seq - a / 64) (a / 64) (a mod 64) pad v TNil TNil, None)).
  Proof using KO.
    intros L Eb NO B. pose proof (end_eq _ _ _ _ _ _ _ NO) as E. cbn [post find]. rewrite E, Nat.min_id.
    assert (B' : forall p, a <= p < length K -> vbit v (a / 64) p = nth p K false) by (intros p R; rewrite B, (ko_bit _ _ _ KO); auto).
    rewrite (proj2 (agreeb_spec _ _ _ _ _) B'), Nat.eqb_refl. split; [discriminate|]. split; [econstructor; eauto; constructor|]. split; auto. split; auto. split.
    - intros K' N. destruct (agreeb v (a / 64) a (min (length K) (length K')) K') eqn:G; auto. destruct (Nat.eqb_spec (length K') (length K)) as [EL|NE].
      + elim N. split; auto. intros p R. rewrite <- B' by auto. symmetry. apply (proj1 (agreeb_spec _ _ _ _ _) G). lia.
      + destruct (Nat.ltb (length K') (length K)); auto. now destruct (nth (length K) K' false).
    - split.
      + intros b' _ _ <-. cbn [starts]. rewrite E. split; auto.
      + intros NN _. cbn. auto.
  Qed.

  (** The key continues in a child. *)
  Lemma descend a e pay blocks first igf igl value zero one r :
    node_ok a e blocks first igf igl value -> twf e zero -> twf e one -> starts e false zero -> starts e true one -> e < length K ->
    (forall p, a <= p < e -> vbit value first p = nth p K false) ->
    post e (if nth e K false then one else zero) r ->
    post a (TNode pay blocks first igf igl value zero one)
      (match r with
       | Some (c, old) => Some (TNode pay blocks first igf igl value (if nth e K false then zero else c) (if nth e K false then c else one), old)
       | None => None
       end).
  Proof using.
    intros NO W0 W1 S0 S1 L B P. pose proof (end_eq _ _ _ _ _ _ _ NO) as E. pose proof (nk_le _ _ _ _ _ _ _ NO) as LE.
    destruct r as [[c old]|].
    - destruct P as (P1 & P2 & P3 & P4 & P5 & P6 & P7). cbn [post find]. rewrite E. replace (min e (length K)) with e by lia.
      rewrite (proj2 (agreeb_spec _ _ _ _ _) B). destruct (Nat.eqb_spec (length K) e); [lia|]. destruct (Nat.ltb_spec (length K) e); [lia|].
      assert (S' : starts e (nth e K false) c).
      { apply P6; auto. destruct (nth e K false); auto. }
      split; [discriminate|]. split.
      { econstructor; eauto; destruct (nth e K false); auto. }
      assert (Q : find (if nth e K false then if nth e K false then c else one else if nth e K false then zero else c) e K = find c e K) by now destruct (nth e K false).
      rewrite Q. split; auto. split; auto. split; [|split].
      + intros K' N. destruct (agreeb value first a (min e (length K')) K') eqn:G; auto. destruct (Nat.eqb_spec (length K') e) as [|NE']; auto.
        destruct (Nat.ltb_spec (length K') e); auto.
        destruct (nth e K' false) eqn:K1; destruct (nth e K false) eqn:K2; auto; apply P5; intros [Q1 Q2]; apply N; split; auto; intros p R;
          (destruct (Nat.lt_ge_cases p e); [|apply Q2; lia]; rewrite <- B by lia; symmetry; apply (proj1 (agreeb_spec _ _ _ _ _) G); lia).
      + intros b. cbn [starts]. auto.
      + intros NN (F & F0 & F1). split; [|destruct (nth e K false); split; auto].
        destruct (nth e K false); auto.
    - destruct P as [P1 P2]. cbn [post]. split; auto. intros (F & F0 & F1) P LP.
      set (Q := P ++ map (fun p => nth p K false) (List.seq a (e - a))).
      assert (LQ : length Q = e) by (unfold Q; rewrite app_length, map_length, seq_length; lia).
      assert (BQ : forall p, a <= p < e -> nth p Q false = nth p K false).
      { intros p R. unfold Q. rewrite app_nth2 by lia. rewrite (nth_indep _ false (nth 0 K false)) by (rewrite map_length, seq_length; lia).
        rewrite (map_nth (fun p => nth p K false)), seq_nth by lia. f_equal. lia. }
      assert (FQ : firstn a Q = P). { unfold Q. rewrite firstn_app, LP, Nat.sub_diag, <- LP, firstn_all. cbn. apply app_nil_r. }
      destruct (P2 ltac:(destruct (nth e K false); auto) Q LQ) as (K' & R1 & R2 & R3 & R4).
      assert (BK : forall p, a <= p < e -> nth p K' false = nth p K false). { intros p R. rewrite <- BQ by auto. rewrite <- R1. rewrite nth_firstn by lia. auto. }
      exists K'. split; [transitivity (firstn a Q); [rewrite <- R1, firstn_firstn; f_equal; lia|auto]|]. split.
      + cbn [find]. rewrite E. replace (min e (length K')) with e by lia. rewrite (proj2 (agreeb_spec _ _ _ _ _)). 2:{ intros p R. rewrite BK by auto. auto. }
        destruct (Nat.eqb_spec (length K') e); [lia|]. destruct (Nat.ltb_spec (length K') e); [lia|]. rewrite R4 by lia. auto.
      + split; auto. intros p R. destruct (Nat.lt_ge_cases p e); [apply BK; lia|apply R4; lia].
  Qed.

  Lemma insert_ok t : forall a, t <> TNil -> twf a t -> a < length K -> post a t (t_insert acc t seq pad).
  Proof using KO.
    induction t as [|pay blocks first igf igl value zero IHz one IHo]; intros a NN W L; [easy|].
    inversion W as [|? e ? ? ? ? ? ? ? ? NO W0 W1 S0 S1]; subst. pose proof (end_eq _ _ _ _ _ _ _ NO) as EE.
    pose proof NO as [G1 G2 G3 G4 G5 G0 G7 G8 G9]. pose proof KO as [K1 K2 K3 K4].
    assert (NS : 0 < length seq) by lia.
    cbn [t_insert]. rewrite (get_nth 0%N) by lia. cbn [obind]. destruct (last_def pad) as (mp & EP); [lia|]. rewrite EP. cbn [obind]. destruct (last_some _ _ EP) as [_ MP].
    assert (LZ : N.ldiff (nth (length seq - 1) seq 0%N) mp = 0%N).
    { apply tb_ext. intros j. rewrite tb_0, tb_ldiff, MP. destruct (Nat.ltb_spec j (64 - pad)) as [|LJ]; [apply andb_false_r|]. rewrite andb_true_r.
      destruct (Nat.lt_ge_cases j 64) as [Lj|Lj]; [|apply tb_nth_ok; auto].
      rewrite <- sbit_pos by auto. rewrite K3. apply nth_overflow. lia. }
    rewrite LZ. cbn [N.eqb negb].
    destruct (first_diff_ok a e blocks first igf igl value seq pad K NO KO blocks 0) as (r & ER & HR); [lia|intros; lia|].
    rewrite ER. cbn [obind].
    (* going to a child *)
    assert (GO : forall bb cc m x, e < length K -> (forall p, a <= p < min e (length K) -> vbit value first p = sbit seq p) ->
      cc = e / 64 -> bb = e mod 64 -> bit_mask bb = Some m -> x = nth cc seq 0%N ->
      post a (TNode pay blocks first igf igl value zero one)
        (if N.eqb (N.land x m) 0 then
           match zero with
           | TNil => c <- t_sub acc seq cc bb pad ;; Some (TNode pay blocks first igf igl value c one, None)
           | _ => '(c, old) <- t_insert acc zero seq pad ;; Some (TNode pay blocks first igf igl value c one, old)
           end
         else
           match one with
           | TNil => c <- t_sub acc seq cc bb pad ;; Some (TNode pay blocks first igf igl value zero c, None)
           | _ => '(c, old) <- t_insert acc one seq pad ;; Some (TNode pay blocks first igf igl value zero c, old)
           end)).
    { intros bb cc m x LE AG -> -> EM ->. destruct (bit_some _ _ EM) as [_ MB]. rewrite MB.
      assert (KE : tb (nth (e / 64) seq 0%N) (e mod 64) = nth e K false) by (rewrite <- K3; reflexivity). rewrite KE.
      assert (AG' : forall p, a <= p < e -> vbit value first p = nth p K false) by (intros p R; rewrite AG by lia; apply K3).
      destruct (sub_ok acc seq pad K e KO LE) as (v & ES & NV & BV).
      pose proof (leaf e v (nth e K false) LE eq_refl NV BV) as LF.
      pose proof (fun r => descend a e pay blocks first igf igl value zero one r NO W0 W1 S0 S1 LE AG') as DE.
      destruct (nth e K false) eqn:KB; cbn [negb].
      - destruct one as [|p1 b1 f1 g1 l1 v1 z1 o1].
        + rewrite ES. cbn [obind]. specialize (DE (Some (_, None)) LF). exact DE.
        + specialize (DE _ (IHo e ltac:(discriminate) W1 LE)). destruct (t_insert acc (TNode p1 b1 f1 g1 l1 v1 z1 o1) seq pad) as [[c old]|]; exact DE.
      - destruct zero as [|p1 b1 f1 g1 l1 v1 z1 o1].
        + rewrite ES. cbn [obind]. specialize (DE (Some (_, None)) LF). exact DE.
        + specialize (DE _ (IHz e ltac:(discriminate) W0 LE)). destruct (t_insert acc (TNode p1 b1 f1 g1 l1 v1 z1 o1) seq pad) as [[c old]|]; exact DE. }
    (* the key ends inside this node *)
    assert (IN : forall b, length K < e -> (forall p, a <= p < min e (length K) -> vbit value first p = sbit seq p) ->
      0 < pad -> b = length K / 64 - first ->
      post a (TNode pay blocks first igf igl value zero one)
        ('(bl, il, v, z, o) <- split_at pay blocks first igl value zero one b (64 - pad) ;; Some (TNode (acc None) bl first igf il v z o, None))).
    { intros b LE AG PP ->. assert (MK : length K mod 64 = 64 - pad).
      { pose proof (pos_eq (length K)). pose proof (pos_mod (length K)). lia. }
      rewrite <- MK. destruct (split_ok a e blocks first igf igl value pay zero one (length K) NO ltac:(lia)) as (bl & il & v & cv & ES & N1 & B1 & N2 & B2).
      rewrite ES. cbn [obind].
      eapply post_transfer with (t1 := TNode None bl first igf il v _ _); [apply here| | |].
      - econstructor; eauto; destruct (vbit value first (length K)) eqn:V; try (econstructor; eauto; fail); try constructor;
          cbn [starts]; rewrite ?(end_eq _ _ _ _ _ _ _ N2); try lia; rewrite B2 by lia; auto.
      - now rewrite (end_eq _ _ _ _ _ _ _ N1).
      - intros p R. rewrite B1 by auto. rewrite AG by lia. apply K3.
      - intros K'. eapply find_split; eauto. lia.
      - intros b [Q1 Q2] _ Q3. cbn [starts]. rewrite (end_eq _ _ _ _ _ _ _ N1). split; auto. rewrite B1 by lia. auto.
      - intros (F & F0 & F1). destruct (vbit value first (length K)); cbn; (split; [|auto]); [right; right|right; left]; discriminate. }
    destruct r as [i|].
    - (* a difference *)
      destruct HR as (Li & Ls & (j0 & Lj0 & Rj0 & Dj0) & BEF). rewrite (get_nth 0%N) by auto. cbn [obind].
      rewrite (get_nth 0%N value) by (rewrite G7; lia). cbn [obind]. destruct (first_def igf G1) as (mf & EF). rewrite EF. cbn [obind]. destruct (first_some _ _ EF) as [_ MF].
      set (x := if Nat.eqb i 0 then N.land (nth (first + i) seq 0%N) mf else nth (first + i) seq 0%N). set (y := nth i value 0%N).
      assert (XB : forall j, j < 64 -> tb x j = andb (sbit seq (64 * (first + i) + j)) (Nat.leb a (64 * (first + i) + j))).
      { intros j Lj. rewrite sbit_pos by auto. unfold x. destruct (Nat.eqb_spec i 0) as [->|].
        - rewrite tb_land, MF. f_equal. destruct (Nat.leb_spec igf j), (Nat.ltb_spec j 64), (Nat.leb_spec a (64 * (first + 0) + j)); auto; lia.
        - destruct (Nat.leb_spec a (64 * (first + i) + j)); [now rewrite andb_true_r|lia]. }
      assert (YB : forall j, j < 64 -> tb y j = vbit value first (64 * (first + i) + j)) by (intros j Lj; now rewrite vbit_pos).
      destruct (diff_bit_ok x y 64 0) as (j & EJ & RJ & DJ & MJ).
      { exists j0. split; [lia|]. rewrite XB, YB by auto. intros E. apply Dj0. rewrite <- E. destruct (Nat.leb_spec a (64 * (first + i) + j0)); [apply andb_true_r|lia]. }
      rewrite EJ. cbn [obind]. set (q := 64 * (first + i) + j).
      assert (Lq : j < 64) by lia.
      assert (Jle : j <= j0). { destruct (Nat.le_gt_cases j j0); auto. exfalso. specialize (MJ j0 ltac:(lia)). rewrite XB, YB in MJ by auto. apply Dj0. rewrite <- MJ.
        destruct (Nat.leb_spec a (64 * (first + i) + j0)); [apply andb_true_r|lia]. }
      rewrite XB, YB in DJ by auto. fold q in DJ.
      assert (AQ : a <= q). { destruct (Nat.le_gt_cases a q) as [|G]; auto. exfalso. apply DJ. rewrite (proj2 (Nat.leb_gt _ _) G), andb_false_r.
        destruct (vbit value first q) eqn:V; auto. apply G9 in V; lia. }
      rewrite (proj2 (Nat.leb_le _ _) AQ), andb_true_r in DJ.
      assert (QE : q < e /\ q < length K) by (unfold q; lia).
      assert (BQ : forall p, a <= p < q -> vbit value first p = nth p K false).
      { intros p R. rewrite <- K3. destruct (Nat.lt_ge_cases p (64 * (first + i))) as [G|G]; [apply BEF; auto; lia|].
        specialize (MJ (p - 64 * (first + i)) ltac:(unfold q in R; lia)). rewrite XB, YB in MJ by (unfold q in R; lia).
        replace (64 * (first + i) + (p - 64 * (first + i))) with p in MJ by lia. rewrite (proj2 (Nat.leb_le a p)), andb_true_r in MJ by lia. auto. }
      assert (Dq : q / 64 = first + i) by (now apply div_pos). assert (Mq : q mod 64 = j) by (now apply mod_pos).
      destruct (split_ok a e blocks first igf igl value pay zero one q NO ltac:(lia)) as (bl & il & v & cv & ES & N1 & B1 & N2 & B2).
      rewrite Dq, Mq in ES. replace (first + i - first) with i in ES by lia. rewrite ES. cbn [obind].
      destruct (bit_def j Lq) as (m & EM). rewrite EM. cbn [obind]. destruct (bit_some _ _ EM) as [_ MB]. rewrite MB, <- sbit_pos by auto. fold q.
      destruct (sub_ok acc seq pad K q KO ltac:(lia)) as (w & EW & NW & BW). rewrite Dq, Mq in EW. rewrite EW. cbn [obind].
      rewrite K3. rewrite K3 in DJ.
      set (ch := TNode pay (blocks - i) (first + i) j igl cv zero one).
      assert (WC : twf q ch). { assert (N2' := N2). rewrite Dq, Mq in N2'. replace (first + i - first) with i in N2' by lia. econstructor; eauto. }
      assert (SC : starts q (vbit value first q) ch).
      { unfold ch; cbn [starts]. replace (t_end (blocks - i) (first + i) igl) with e by (unfold t_end; lia). split; [lia|]. rewrite <- Dq. apply B2. lia. }
      set (t1 := TNode None bl first igf il v (if vbit value first q then TNil else ch) (if vbit value first q then ch else TNil)).
      assert (FS : forall K', find t1 a K' = find (TNode pay blocks first igf igl value zero one) a K').
      { intros K'. rewrite <- (find_split a e q blocks first igf igl value pay zero one bl il v cv K' NO ltac:(lia) N1 B1 N2 B2).
        unfold t1, ch. rewrite Dq, Mq. replace (first + i - first) with i by lia. reflexivity. }
      pose proof (leaf q w (nth q K false) ltac:(lia) eq_refl NW BW) as LF. rewrite Dq, Mq in LF.
      assert (DD : post a t1 (match Some (TNode (acc None) (length seq - (first + i)) (first + i) j pad w TNil TNil, @None A) with
          | Some (c, old) => Some (TNode None bl first igf il v (if nth q K false then (if vbit value first q then TNil else ch) else c) (if nth q K false then c else (if vbit value first q then ch else TNil)), old)
          | None => None end)).
      { refine (descend a q None bl first igf il v (if vbit value first q then TNil else ch) (if vbit value first q then ch else TNil)
            (Some (TNode (acc None) (length seq - (first + i)) (first + i) j pad w TNil TNil, @None A)) N1 _ _ _ _ _ _ _).
        - destruct (vbit value first q); auto. constructor.
        - destruct (vbit value first q); auto. constructor.
        - destruct (vbit value first q); auto. exact I.
        - destruct (vbit value first q); auto. exact I.
        - lia.
        - intros p R. rewrite B1 by auto. now apply BQ.
        - destruct (nth q K false), (vbit value first q); congruence || exact LF. }
      assert (FIN : post a (TNode pay blocks first igf igl value zero one)
         (Some (TNode None bl first igf il v (if nth q K false then (if vbit value first q then TNil else ch) else TNode (acc None) (length seq - (first + i)) (first + i) j pad w TNil TNil)
                  (if nth q K false then TNode (acc None) (length seq - (first + i)) (first + i) j pad w TNil TNil else (if vbit value first q then ch else TNil)), @None A))).
      { eapply post_transfer; [exact DD|exact FS| |].
        - intros b [Q1 Q2] _ Q3. unfold t1; cbn [starts]. rewrite (end_eq _ _ _ _ _ _ _ N1).
          assert (a <> q) by (intros ->; congruence). split; [lia|]. rewrite B1 by lia. auto.
        - intros (F & F0 & F1). unfold t1, ch. destruct (vbit value first q); cbn; (split; [|auto]); [right; right|right; left]; discriminate. }
      destruct (nth q K false) eqn:KQ, (vbit value first q) eqn:VQ; try congruence; exact FIN.
    - (* no difference *)
      destruct (Nat.eqb_spec (first + blocks) (length seq)) as [EQ|NE].
      + destruct (Nat.eqb_spec igl pad) as [EP'|NP].
        * apply here; auto; [lia|]. intros p R. rewrite HR by lia. apply K3.
        * destruct (Nat.ltb_spec pad igl) as [LP|LP].
          -- assert (BL : bit_mask (64 - igl) <> None) by (destruct (bit_def (64 - igl) ltac:(lia)) as (m & ->); discriminate).
             destruct (bit_mask (64 - igl)) as [m|] eqn:EM; [|easy]. cbn [obind].
             assert (DE : e = 64 * (length seq - 1) + (64 - igl)) by lia.
             apply GO; auto; [lia|rewrite DE; symmetry; apply div_pos; lia|rewrite DE; symmetry; apply mod_pos; lia].
          -- apply IN; auto; [lia|lia|]. assert (length K = 64 * (length seq - 1) + (64 - pad)) as -> by lia. rewrite div_pos by lia. lia.
      + destruct (Nat.ltb_spec (first + blocks) (length seq)) as [LS|LS].
        * set (nb := if Nat.eqb (64 - igl) 64 then 0 else 64 - igl). set (nk := first + blocks - (if Nat.eqb nb 0 then 0 else 1)).
          assert (NB : nb < 64 /\ e = 64 * nk + nb).
          { unfold nk, nb. destruct (Nat.eqb_spec (64 - igl) 64); [|destruct (Nat.eqb_spec (64 - igl) 0)]; cbn [Nat.eqb]; lia. }
          destruct NB as [NB1 NB2]. rewrite (get_nth 0%N) by lia. cbn [obind]. destruct (bit_def nb NB1) as (m & EM). rewrite EM. cbn [obind].
          apply GO; auto; [lia|rewrite NB2; symmetry; apply div_pos; lia|rewrite NB2; symmetry; apply mod_pos; lia].
        * assert (LE : length K < e) by lia. destruct (Nat.eq_dec pad 0) as [P0|P0].
          -- (* undefined *)
             assert (U : split_at pay blocks first igl value zero one (length seq - first - 1) (64 - pad) = None).
             { unfold split_at. destruct (Nat.ltb _ _); auto. rewrite P0. reflexivity. }
             rewrite U. cbn [obind post]. split; auto. intros F P LP.
             destruct (full_find _ a P W NN F LP) as (K' & F1 & F2 & F3 & F4). exists K'. split; auto. split; auto. rewrite EE in F3, F4. split; [lia|].
             intros p R. rewrite F4 by lia. rewrite HR by lia. apply K3.
          -- apply IN; auto; [lia|]. assert (length K = 64 * (length seq - 1) + (64 - pad)) as -> by lia. rewrite div_pos by lia. lia.
  Qed.
End Insert.
