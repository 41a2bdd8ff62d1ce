(** Proofs about Read_model.v. *)
From Coq Require Import Ascii Sorted.
From Coq Require Import Relations Operators_Properties.
From Verif Require Import Base Htn_problem Htn_spec Read_model Read_spec.
From Verif Require Order_model Order_thm.
Local Open Scope Z_scope.

(** *** Numbers *)
Lemma digit_digit_char d : (d < 10)%nat -> digit (digit_char d) = Some (Z.of_nat d) /\ is_space (digit_char d) = false /\ Ascii.eqb (digit_char d) "-" = false /\ Ascii.eqb (digit_char d) "+" = false.
Proof. intros H. do 10 (destruct d as [|d]; [repeat split; reflexivity|]). lia. Qed.

Lemma numeral_digits s n : numeral s n -> forall t any v, digits (s ++ t) any v = digits t true (v * 10 ^ Z.of_nat (length s) + Z.of_nat n).
Proof.
  induction 1 as [d L|s n d H IH L]; intros t any v.
  - cbn [app digits]. rewrite (proj1 (digit_digit_char d L)). f_equal. cbn [length]. lia.
  - rewrite <- app_assoc, IH. cbn [app digits]. rewrite (proj1 (digit_digit_char d L)). f_equal. rewrite app_length, Nat2Z.inj_add, Z.pow_add_r by lia. cbn [length]. lia.
Qed.
Lemma numeral_head s n : numeral s n -> exists d r, s = digit_char d :: r /\ (d < 10)%nat.
Proof. induction 1 as [d L|s n d H (e & r & -> & L) L2]; [exists d, []; auto|]. exists e, (r ++ [digit_char d]). auto. Qed.

Lemma blank_facts c : blank c -> is_space c = true /\ digit c = None.
Proof. intros [-> | ->]; split; reflexivity. Qed.
Lemma skip_blanks w t : Forall blank w -> skip_space (w ++ t) = skip_space t.
Proof. induction 1 as [|c w B _ IH]; cbn [app skip_space]; auto. now rewrite (proj1 (blank_facts c B)). Qed.

Definition stops (r : text) : Prop := r = [] \/ exists c r', r = c :: r' /\ blank c.
Lemma digits_stop r v : stops r -> digits r true v = (true, v, r).
Proof. intros [->|(c & r' & -> & B)]; cbn; auto. now rewrite (proj2 (blank_facts c B)). Qed.

Lemma extract_ok w s z r x : Forall blank w -> int_text s z -> stops r -> extract (sopen (w ++ s ++ r)) x = (sopen r, Some z).
Proof.
  intros W T R. unfold extract, sopen. cbn [s_fail s_rest]. rewrite skip_blanks by auto. destruct T as [s n N B|s n N B].
  - destruct (numeral_head _ _ N) as (d & q & E & L). destruct (digit_digit_char d L) as (D1 & D2 & D3 & D4).
    assert (SK : skip_space (s ++ r) = digit_char d :: q ++ r). { rewrite E. cbn [app skip_space]. now rewrite D2. }
    rewrite SK. rewrite D3, D4. cbn [orb]. replace (digit_char d :: q ++ r) with (s ++ r) by now rewrite E. rewrite (numeral_digits _ _ N), digits_stop by auto. cbn [Z.mul Z.add].
    destruct (Z.ltb_spec (Z.of_nat n) int_min) as [X|X]; [unfold int_min in X; lia|]. destruct (Z.ltb_spec int_max (Z.of_nat n)) as [Y|Y]; [unfold int_max in Y; lia|]. reflexivity.
  - change (skip_space (("-"%char :: s) ++ r)) with ("-"%char :: (s ++ r)). cbv beta iota zeta. change (Ascii.eqb "-" "-") with true. change (true || Ascii.eqb "-" "+")%bool with true. cbv iota.
    rewrite (numeral_digits _ _ N), digits_stop by auto. cbn [Z.mul Z.add].
    destruct (Z.ltb_spec (- Z.of_nat n) int_min) as [X|X]; [unfold int_min in X; lia|]. destruct (Z.ltb_spec int_max (- Z.of_nat n)) as [Y|Y]; [unfold int_max in Y; lia|]. reflexivity.
Qed.

Lemma int_text_length s z : int_text s z -> (0 < length s)%nat.
Proof. intros [s' n N _|s' n N _]; [destruct (numeral_head _ _ N) as (d & r & -> & _)|]; cbn; lia. Qed.
Lemma extract_begins t z l x : begins t (z :: l) -> exists r, extract (sopen t) x = (sopen r, Some z) /\ begins r l /\ (length r < length t)%nat.
Proof.
  intros H. inversion H as [|w s z' r l' W T S0 B]; subst. exists r. split; [now apply extract_ok|]. split; auto. rewrite !app_length. apply int_text_length in T. lia.
Qed.

Lemma begins_app t l1 l2 : begins t (l1 ++ l2) -> begins t l1.
Proof. revert t. induction l1 as [|z l1 IH]; intros t H; [constructor|]. cbn [app] in H. inversion H; subst. constructor; auto. Qed.

(** *** Lists *)
Lemma element_not_end z : element z <> -1.
Proof. unfold element. destruct (Z.ltb_spec z 0); lia. Qed.
Lemma element_back z : (if element z <? 0 then element z + 1 else element z) = z.
Proof. unfold element. destruct (Z.ltb_spec z 0) as [L|L]; [destruct (Z.ltb_spec (z - 1) 0)|destruct (Z.ltb_spec z 0)]; lia. Qed.

Lemma int_list_ok l : forall fuel t z v, begins t (map element l ++ [-1]) -> (length t < fuel)%nat ->
  int_list_loop fuel (sopen t) (Some (element z)) v = ROk (v ++ z :: l).
Proof.
  induction l as [|y l IH]; intros fuel t z v B F; (destruct fuel as [|fuel]; [lia|]); cbn [int_list_loop];
    rewrite (proj2 (Z.eqb_neq _ _) (element_not_end z)), element_back; cbn [sopen s_fail]; fold (sopen t); cbn [map app] in B;
    destruct (extract_begins _ _ _ (Some z) B) as (r & -> & B' & L).
  - destruct fuel; cbn; auto.
  - rewrite IH by (auto; lia). rewrite <- app_assoc. reflexivity.
Qed.
Lemma read_int_list_ok t l : list_line t l -> read_int_list t = ROk l.
Proof.
  unfold list_line, read_int_list. intros B. destruct l as [|z l]; cbn [map app] in B; destruct (extract_begins _ _ _ None B) as (r & -> & B' & L).
  - destruct (length t); reflexivity.
  - now apply (int_list_ok l (length t) r z []).
Qed.
Lemma nat_line t l : nat_list_line t l -> list_line t (map Z.of_nat l).
Proof.
  unfold nat_list_line, list_line. rewrite map_map. intros B. erewrite map_ext; [exact B|]. intros n. unfold element. destruct (Z.ltb_spec (Z.of_nat n) 0); lia.
Qed.

Lemma read_conds_ok c : forall t l, begins t (map Z.of_nat c ++ l) -> exists r, read_conds (length c) (sopen t) = ROk (sopen r, map Z.of_nat c) /\ begins r l /\ (length r <= length t)%nat.
Proof.
  induction c as [|y c IH]; intros t l B; cbn [length read_conds map app] in *; [exists t; auto|].
  destruct (extract_begins _ _ _ None B) as (r & -> & B' & L). cbn [known rbind]. destruct (IH r l B') as (r' & -> & B'' & L'). cbn [rbind]. exists r'. split; auto. split; auto. lia.
Qed.

Definition zeff (e : list nat * nat) : list Z * Z := (map Z.of_nat (fst e), Z.of_nat (snd e)).
Definition conditional (es : list (list nat * nat)) : list (list nat * nat) := filter (fun e => negb (Nat.eqb (length (fst e)) 0)) es.

Lemma cond_list_ok es : forall fuel t n l v cs, begins t l -> (length t < fuel)%nat -> n :: l = concat (map effect_text es) ++ [-1] ->
  cond_list_loop fuel (sopen t) (Some n) v cs = ROk (v ++ map Z.of_nat (plain es), cs ++ map zeff (conditional es)).
Proof.
  induction es as [|e es IH]; intros fuel t n l v cs B F E.
  - cbn in E. injection E as -> ->. destruct fuel; cbn; rewrite !app_nil_r; reflexivity.
  - cbn [map concat] in E. unfold effect_text in E at 1. cbn [app] in E. injection E as -> ->. destruct fuel as [|fuel]; [lia|]. cbn [cond_list_loop].
    destruct (Z.ltb_spec (Z.of_nat (length (fst e))) 0); [lia|]. rewrite Nat2Z.id. rewrite <- !app_assoc in B.
    destruct (read_conds_ok (fst e) t _ B) as (r & -> & B1 & L1). cbn [rbind]. cbn [app] in B1.
    destruct (extract_begins _ _ _ (Some (Z.of_nat (length (fst e)))) B1) as (r1 & -> & B2 & L2). cbn [known rbind].
    remember (concat (map effect_text es) ++ [-1]) as q eqn:Eq. destruct q as [|m q]; [destruct (concat (map effect_text es)); discriminate|].
    destruct (extract_begins _ _ _ (Some (Z.of_nat (snd e))) B2) as (r2 & -> & B3 & L3).
    unfold plain, conditional. cbn [filter]. destruct (fst e) as [|c cl] eqn:Ee; cbn [map length Nat.eqb negb].
    + rewrite (IH fuel r2 m q) by (auto; lia). rewrite <- app_assoc. reflexivity.
    + rewrite (IH fuel r2 m q) by (auto; lia). rewrite <- app_assoc. cbn [map app]. unfold zeff at 2. rewrite Ee. reflexivity.
Qed.
Lemma read_cond_list_ok t es : effect_line t es -> read_cond_list t = ROk (map Z.of_nat (plain es), map zeff (conditional es)).
Proof.
  unfold effect_line, read_cond_list. intros B. remember (concat (map effect_text es) ++ [-1]) as q eqn:Eq. destruct q as [|m q]; [destruct (concat (map effect_text es)); discriminate|].
  destruct (extract_begins _ _ _ None B) as (r & -> & B1 & L1). apply (cond_list_ok es _ r m q [] []); auto.
Qed.

Lemma read_int_ok t z l : begins t (z :: l) -> read_int t = ROk z.
Proof. intros B. unfold read_int. destruct (extract_begins _ _ _ None B) as (r & -> & _). reflexivity. Qed.
Lemma read_size_ok t n : number_line t n -> read_size t = ROk n.
Proof. intros B. unfold read_size. rewrite (read_int_ok _ _ _ B). cbn [rbind]. destruct (Z.ltb_spec (Z.of_nat n) 0); [lia|]. now rewrite Nat2Z.id. Qed.

(** *** Files *)
Section File.
Variable rest : text.
Definition clean (ls : list text) : Prop := forall l, In l ls -> ~ In newline l.
(** The lines [ls] are next. *)
Definition pos (f : file) (ls : list text) : Prop := f_eof f = false /\ f_rest f = unlines ls ++ rest /\ clean ls.

Lemma upto_ok l r : ~ In newline l -> upto_nl (l ++ newline :: r) = (l, r, false).
Proof.
  induction l as [|c l IH]; intros N; cbn [app upto_nl].
  - reflexivity.
  - destruct (Ascii.eqb_spec c nl) as [->|NE]; [exfalso; apply N; now left|]. rewrite IH; auto. intros H. apply N. now right.
Qed.
Lemma getline_pos f l ls : pos f (l :: ls) -> pos (getline f) ls /\ f_line (getline f) = l.
Proof.
  intros (E & R & C). unfold getline. rewrite E, R. unfold unlines. cbn [map concat]. rewrite <- !app_assoc. cbn [app]. rewrite upto_ok by (apply C; now left).
  split; [|reflexivity]. split; auto. split; auto. intros x Hx. apply C. now right.
Qed.
Lemma getlines_pos n : forall f l ls, length l = n -> pos f (l ++ ls) -> pos (getlines n f) ls.
Proof. induction n as [|n IH]; intros f [|x l] ls E P; try discriminate; cbn [getlines]; auto. apply getline_pos in P as [P _]. apply (IH _ l); auto. Qed.
Lemma getlines_last n : forall f l x ls, length l = n -> pos f (l ++ x :: ls) -> pos (getlines (S n) f) ls /\ f_line (getlines (S n) f) = x.
Proof.
  induction n as [|n IH]; intros f [|y l] x ls E P; try discriminate; cbn [app] in P; apply getline_pos in P as [P L].
  - cbn [getlines]. auto.
  - change (getlines (S (S n)) f) with (getlines (S n) (getline f)). apply (IH _ l); auto.
Qed.

Lemma repeat_read_ok {A B} (g : file -> res (B * file)) (item : A -> list text -> Prop) (val : A -> B) l :
  (forall a ls ls' f, In a l -> item a ls -> pos f (ls ++ ls') -> exists f', g f = ROk (val a, f') /\ pos f' ls') ->
  forall r ls' f, Forall2 item l r -> pos f (concat r ++ ls') -> exists f', repeat_read (length l) g f = ROk (map val l, f') /\ pos f' ls'.
Proof.
  intros H r ls' f F. revert H f. induction F as [|a ls k r Ha F IH]; intros H f P; cbn [length repeat_read map concat app] in *; [eauto|].
  rewrite <- app_assoc in P. destruct (H a ls _ f (or_introl eq_refl) Ha P) as (f1 & -> & P1). cbn [rbind].
  destruct (IH (fun x y z g Hx => H x y z g (or_intror Hx)) f1 P1) as (f2 & -> & P2). cbn [rbind]. eauto.
Qed.

Lemma read_info_ok f l ls ls' : info_lines l ls -> pos f (ls ++ ls') -> exists f', read_info f = ROk (l, f') /\ pos f' ls'.
Proof.
  intros (n & r & a & b & -> & N & F) P. unfold read_info. cbn [app] in P. apply getline_pos in P as [P L]. rewrite L, (read_size_ok _ _ N). cbn [rbind].
  rewrite <- app_assoc in P. assert (P' : pos (getline f) (concat (map (fun x => [x]) r) ++ [a; b] ++ ls')).
  { replace (concat (map (fun x => [x]) r)) with r; auto. clear. induction r as [|x r IH]; cbn; congruence. }
  assert (F' : Forall2 (fun z ls => exists t, ls = [t] /\ list_line t z) l (map (fun x => [x]) r)). { clear -F. induction F; cbn; constructor; eauto. }
  destruct (repeat_read_ok read_list_line (fun z ls => exists t, ls = [t] /\ list_line t z) (fun z => z) l) with (r := map (fun x => [x]) r) (ls' := [a; b] ++ ls') (f := getline f) as (f1 & E1 & P1); auto.
  - intros z ls ls1 f0 _ (t & -> & LL) P0. unfold read_list_line. cbn [app] in P0. apply getline_pos in P0 as [P0 L0]. rewrite L0, (read_int_list_ok _ _ LL). cbn [rbind]. eauto.
  - rewrite E1, map_id. cbn [rbind]. eexists. split; [reflexivity|]. apply (getlines_pos 2 f1 [a; b]); auto.
Qed.

Definition raw (a : daction) : raction :=
  {| ra_cost := Z.of_nat (da_cost a); ra_prec := map Z.of_nat (da_prec a); ra_add := map Z.of_nat (plain (da_add a)); ra_del := map Z.of_nat (plain (da_del a)) |}.

Lemma read_action_ok f a ls ls' : action_lines a ls -> pos f (ls ++ ls') -> exists f', read_action f = ROk (raw a, f') /\ pos f' ls'.
Proof.
  intros (c & p & e & d & -> & C & PR & E & D) P. unfold read_action. cbn [app] in P.
  apply getline_pos in P as [P L1]. rewrite L1, (read_int_ok _ _ _ C). cbn [rbind]. apply getline_pos in P as [P L2]. rewrite L2, (read_int_list_ok _ _ (nat_line _ _ PR)). cbn [rbind].
  apply getline_pos in P as [P L3]. rewrite L3, (read_cond_list_ok _ _ E). cbn [rbind]. apply getline_pos in P as [P L4]. rewrite L4, (read_cond_list_ok _ _ D). cbn [rbind]. eauto.
Qed.

Lemma read_var_ok f v l ls' : begins l [Z.of_nat (fst v); Z.of_nat (snd v)] -> pos f (l :: ls') -> exists f', read_var f = ROk (Z.of_nat (fst v), Z.of_nat (snd v), f') /\ pos f' ls'.
Proof.
  intros B P. unfold read_var. apply getline_pos in P as [P L]. rewrite L. destruct (extract_begins _ _ _ None B) as (r & -> & B1 & _). destruct (extract_begins _ _ _ None B1) as (r1 & -> & _). cbn [known rbind]. eauto.
Qed.

Lemma read_tasks_ok l : forall ts b ls' f, Forall2 (fun (b : bool) l => number_line l (if b then 1 else 0)%nat) l ts -> pos f (ts ++ ls') ->
  exists f', read_tasks (length l) b f = ROk (map negb l, f') /\ pos f' ls'.
Proof.
  induction l as [|a l IH]; intros ts b ls' f F P; inversion F as [|? t ? ts' N F']; subst; cbn [length read_tasks map app] in *; [eauto|].
  apply getline_pos in P as [P L]. rewrite L. unfold number_line in N. inversion N as [|w s z r l' W T S0 B EQ]; subst.
  destruct (w ++ s ++ r) as [|c q] eqn:Ec.
  { exfalso. apply (f_equal (@length _)) in Ec. rewrite !app_length in Ec. cbn in Ec. apply int_text_length in T. lia. }
  assert (X : extract_bool (sopen (c :: q)) b = (sopen r, Some a)).
  { unfold extract_bool. cbn [sopen s_fail s_rest]. fold (sopen (c :: q)). rewrite <- Ec. rewrite (extract_ok w s _ r None W T S0).
    assert (NE : skip_space (w ++ s ++ r) <> []). { rewrite skip_blanks by auto. destruct T as [s' n NN _|s' n NN _]; [|discriminate]. destruct (numeral_head _ _ NN) as (d & q' & -> & LD). cbn [app skip_space]. now rewrite (proj1 (proj2 (digit_digit_char d LD))). }
    destruct (skip_space (w ++ s ++ r)); [congruence|]. cbn [option_map]. f_equal. f_equal. destruct a; reflexivity. }
  rewrite X. cbn [known rbind]. destruct (IH ts' (Some a) ls' (getline f) F' P) as (f' & -> & P'). cbn [rbind]. eauto.
Qed.
End File.

(** *** Variables *)
Lemma mark_fold (i : nat) js : forall T : list (option nat), (forall j, In j js -> 0 <= j < Z.of_nat (length T)) ->
  exists T', fold_left (fun T j => T <~ T ;; if (j <? 0)%Z then RUndef else known (set T (Z.to_nat j) (Some i))) js (ROk T) = ROk T' /\ length T' = length T /\
  forall k, (k < length T)%nat -> get T' k = if in_dec Z.eq_dec (Z.of_nat k) js then Some (Some i) else get T k.
Proof.
  induction js as [|j js IH]; intros T H; cbn [fold_left].
  - exists T. split; [auto|]. split; auto.
  - destruct (H j (or_introl eq_refl)) as [H1 H2]. cbn [rbind]. destruct (Z.ltb_spec j 0); [lia|].
    destruct (set_some T (Z.to_nat j) (Some i)) as (T1 & E1). { lia. } rewrite E1. cbn [known]. pose proof (set_length _ _ _ _ E1) as L1.
    destruct (IH T1) as (T' & -> & L' & G'). { intros x Hx. rewrite L1. apply H. now right. }
    exists T'. split; auto. split; [congruence|]. intros k Hk. rewrite G' by lia. destruct (in_dec Z.eq_dec (Z.of_nat k) js) as [I|I]; destruct (in_dec Z.eq_dec (Z.of_nat k) (j :: js)) as [I'|I']; auto; try (exfalso; apply I'; now right).
    + destruct I' as [->|I']; [|contradiction]. rewrite Nat2Z.id in E1. now apply get_set_eq in E1.
    + apply (get_set_neq _ _ _ _ _ E1). intros X. apply I'. left. lia.
Qed.

Definition zvar (v : nat * nat) : Z * Z := (Z.of_nat (fst v), Z.of_nat (snd v)).
Lemma mark_var_ok T i v : (snd v < length T)%nat -> exists T', mark_var T i (zvar v) = ROk T' /\ length T' = length T /\
  forall k, (k < length T)%nat -> get T' k = if (Nat.leb (fst v) k && Nat.leb k (snd v))%bool then Some (Some i) else get T k.
Proof.
  intros L. unfold mark_var. cbn [zvar fst snd]. match goal with |- context [fold_left _ ?js _] => set (js0 := js) end.
  assert (J : forall j, In j js0 <-> Z.of_nat (fst v) <= j <= Z.of_nat (snd v)).
  { intros j. unfold js0. rewrite in_map_iff. split.
    - intros (k & <- & Hk). apply in_seq in Hk. lia.
    - intros Hj. exists (Z.to_nat (j - Z.of_nat (fst v))). split; [lia|]. apply in_seq. lia. }
  destruct (mark_fold i js0 T) as (T' & E & L' & G). { intros j Hj. apply J in Hj. lia. }
  exists T'. split; auto. split; auto. intros k Hk. rewrite G by auto.
  destruct (in_dec Z.eq_dec (Z.of_nat k) js0) as [I|I]; rewrite J in I; destruct (Nat.leb_spec (fst v) k); destruct (Nat.leb_spec k (snd v)); cbn [andb]; auto; lia.
Qed.

Lemma mark_vars_ok vs : forall T pre, (forall v, In v vs -> (snd v < length T)%nat) -> (forall k o, get T k = Some o -> is_var_of pre k o) ->
  exists T', mark_vars T (length pre) (map zvar vs) = ROk T' /\ length T' = length T /\ forall k o, get T' k = Some o -> is_var_of (pre ++ vs) k o.
Proof.
  induction vs as [|v vs IH]; intros T pre H I; cbn [map mark_vars].
  - rewrite app_nil_r. eauto.
  - destruct (mark_var_ok T (length pre) v) as (T1 & E1 & L1 & G1). { apply H. now left. } rewrite E1. cbn [rbind].
    destruct (IH T1 (pre ++ [v])) as (T' & E' & L' & I').
    + intros w Hw. rewrite L1. apply H. now right.
    + intros k o Hk. assert (K : (k < length T)%nat). { rewrite <- L1. apply nth_error_Some. unfold get in Hk. congruence. } rewrite G1 in Hk by auto. clear - Hk I.
      assert (N : forall i w, nth_error (pre ++ [v]) i = Some w -> nth_error pre i = Some w \/ (i = length pre /\ w = v)).
      { intros i w Hi. destruct (Nat.lt_ge_cases i (length pre)); [rewrite nth_error_app1 in Hi by auto; auto|]. rewrite nth_error_app2 in Hi by auto. destruct (i - length pre)%nat as [|d] eqn:Ed; [|destruct d; discriminate]. injection Hi as ->. right. split; auto. lia. }
      destruct (Nat.leb_spec (fst v) k) as [A|A]; [destruct (Nat.leb_spec k (snd v)) as [B|B]|]; cbn [andb] in Hk.
      * injection Hk as <-. split.
        -- exists v. split; [|lia]. rewrite nth_error_app2, Nat.sub_diag by lia. reflexivity.
        -- intros i' (w & Hw & _). apply N in Hw as [Hw|[-> _]]; auto. apply Nat.lt_le_incl, nth_error_Some. congruence.
      * apply I in Hk. destruct o as [i|]; cbn in *.
        -- destruct Hk as ((w & Hw & R) & M). split; [exists w; split; auto; rewrite nth_error_app1; auto; apply nth_error_Some; congruence|]. intros i' (w' & Hw' & R'). apply N in Hw' as [Hw'|[_ ->]]; [|lia]. apply M. eauto.
        -- intros i (w & Hw & R). apply N in Hw as [Hw|[_ ->]]; [|lia]. apply (Hk i). eauto.
      * apply I in Hk. destruct o as [i|]; cbn in *.
        -- destruct Hk as ((w & Hw & R) & M). split; [exists w; split; auto; rewrite nth_error_app1; auto; apply nth_error_Some; congruence|]. intros i' (w' & Hw' & R'). apply N in Hw' as [Hw'|[_ ->]]; [|lia]. apply M. eauto.
        -- intros i (w & Hw & R). apply N in Hw as [Hw|[_ ->]]; [|lia]. apply (Hk i). eauto.
    + exists T'. rewrite app_length in E'. cbn [length] in E'. rewrite Nat.add_1_r in E'. rewrite E'. split; auto. split; [congruence|]. intros k o Hk. apply I' in Hk. now rewrite <- app_assoc in Hk.
Qed.

(** *** Sets *)
Lemma zset_add_in x l y : In y (zset_add x l) <-> y = x \/ In y l.
Proof.
  induction l as [|z l IH]; cbn [zset_add]; [cbn; intuition|]. destruct (Z.ltb_spec x z); [cbn; intuition|]. destruct (Z.eqb_spec x z) as [->|]; [cbn; intuition|]. cbn [In]. rewrite IH. intuition.
Qed.
Lemma zset_fold_in l : forall s y, In y (fold_left (fun s x => zset_add x s) l s) <-> In y l \/ In y s.
Proof. induction l as [|x l IH]; intros s y; cbn [fold_left In]; [tauto|]. rewrite IH, zset_add_in. intuition. Qed.
Lemma zset_in l y : In y (zset l) <-> In y l.
Proof. unfold zset. rewrite zset_fold_in. cbn. tauto. Qed.
Lemma zset_add_sorted x l : Sorted.StronglySorted Z.lt l -> Sorted.StronglySorted Z.lt (zset_add x l).
Proof.
  induction 1 as [|z l S IH F]; cbn [zset_add]; [repeat constructor|]. destruct (Z.ltb_spec x z).
  - constructor; [constructor; auto|]. constructor; auto. revert F. apply Forall_impl. lia.
  - destruct (Z.eqb_spec x z) as [->|]; [constructor; auto|]. constructor; auto. apply Forall_forall. intros y Hy. apply (proj1 (zset_add_in _ _ _)) in Hy as [->|Hy]; [lia|]. rewrite Forall_forall in F. auto.
Qed.
Lemma zset_sorted l : Sorted.StronglySorted Z.lt (zset l).
Proof. unfold zset. assert (G : forall s, Sorted.StronglySorted Z.lt s -> Sorted.StronglySorted Z.lt (fold_left (fun s x => zset_add x s) l s)); [|apply G; constructor]. induction l as [|x l IH]; intros s H; cbn [fold_left]; auto. apply IH. now apply zset_add_sorted. Qed.
Lemma sorted_nodup l : Sorted.StronglySorted Z.lt l -> NoDup l.
Proof. induction 1 as [|x l S IH F]; constructor; auto. intros H. rewrite Forall_forall in F. specialize (F _ H). lia. Qed.

Lemma dedup_ok a : exists q, ra_prec (dedup (raw a)) = map Z.of_nat q /\ NoDup q /\ forall f, In f q <-> In f (da_prec a).
Proof.
  unfold dedup. cbn [raw ra_prec]. set (l := map Z.of_nat (da_prec a)).
  assert (Z0 : map Z.of_nat (map Z.to_nat (zset l)) = zset l).
  { rewrite map_map. rewrite <- (map_id (zset l)) at 2. apply map_ext_in. intros z Hz. apply (proj1 (zset_in _ _)) in Hz. unfold l in Hz. apply in_map_iff in Hz as (n & <- & _). lia. }
  assert (NZ : forall q, NoDup (map Z.of_nat q) -> NoDup q) by (intros q; apply NoDup_map_inv).
  destruct (Nat.ltb_spec (length (zset l)) (length l)) as [L|L].
  - exists (map Z.to_nat (zset l)). split; auto. split; [apply NZ; rewrite Z0; apply sorted_nodup, zset_sorted|].
    intros f. rewrite in_map_iff. split.
    + intros (z & <- & Hz). apply (proj1 (zset_in _ _)) in Hz. unfold l in Hz. apply in_map_iff in Hz as (n & <- & Hn). now rewrite Nat2Z.id.
    + intros Hf. exists (Z.of_nat f). split; [apply Nat2Z.id|]. apply (proj2 (zset_in _ _)). now apply in_map.
  - exists (da_prec a). split; auto. split; [|tauto]. apply NZ. fold l. apply NoDup_incl_NoDup with (zset l); auto; [apply sorted_nodup, zset_sorted|]. intros z Hz. now apply (proj1 (zset_in _ _)) in Hz.
Qed.

(** *** Rows *)
Lemma row_fold i l : forall T, (forall f, In f l -> (f < length T)%nat) ->
  exists T', ofold (fun T f => if (f <? 0)%Z then None else row <- get T (Z.to_nat f) ;; set T (Z.to_nat f) (if memb i row then row else row ++ [i])) (map Z.of_nat l) T = Some T' /\
  length T' = length T /\ forall f row, get T f = Some row -> get T' f = Some (if (memb f l && negb (memb i row))%bool then row ++ [i] else row).
Proof.
  induction l as [|x l IH]; intros T H; cbn [map ofold].
  - exists T. split; [auto|]. split; auto.
  - destruct (Z.ltb_spec (Z.of_nat x) 0); [lia|]. rewrite Nat2Z.id. destruct (get_some T x) as (row & E); [apply H; now left|]. rewrite E. cbn [obind].
    destruct (set_some T x (if memb i row then row else row ++ [i])) as (T1 & E1); [apply H; now left|]. rewrite E1. cbn [obind]. pose proof (set_length _ _ _ _ E1) as L1.
    destruct (IH T1) as (T' & -> & L' & G). { intros f Hf. rewrite L1. apply H. now right. }
    exists T'. split; auto. split; [congruence|]. intros f row0 Hf. destruct (Nat.eq_dec f x) as [->|NE].
    + assert (row0 = row) by congruence. subst row0. pose proof (get_set_eq _ _ _ _ E1) as Q. apply G in Q. rewrite Q. f_equal. cbn [memb existsb]. rewrite Nat.eqb_refl. cbn [orb andb].
      destruct (memb i row) eqn:M; cbn [negb]; [rewrite M; cbn [negb]; now rewrite Bool.andb_false_r|].
      assert (M' : memb i (row ++ [i]) = true). { apply memb_In. apply in_or_app. right. now left. } rewrite M'. cbn [negb]. now rewrite Bool.andb_false_r.
    + rewrite <- (get_set_neq _ _ _ _ _ E1 (not_eq_sym NE)) in Hf. apply G in Hf. rewrite Hf. f_equal. cbn [memb existsb]. destruct (Nat.eqb_spec f x); [contradiction|]. reflexivity.
Qed.

Lemma to_action_ok nf L : forall pre T, (forall l f, In l L -> In f l -> (f < nf)%nat) -> rows nf pre T ->
  exists T', to_action nf (length pre) (map (map Z.of_nat) L) T = Some T' /\ rows nf (pre ++ L) T'.
Proof.
  induction L as [|l L IH]; intros pre T H [LT R]; cbn [map to_action].
  - exists T. rewrite app_nil_r. split; auto. split; auto.
  - destruct (row_fold (length pre) l T) as (T1 & E1 & L1 & G1). { intros f Hf. rewrite LT. apply (H l); auto. now left. } rewrite E1. cbn [obind].
    destruct (IH (pre ++ [l]) T1) as (T' & E' & R').
    + intros l' f Hl. apply H. now right.
    + split; [congruence|]. intros f row1 Hf. destruct (get_some T f) as (row & E). { rewrite <- L1. apply nth_error_Some. congruence. }
      destruct (R f row E) as [SR IR]. assert (NI : ~ In (length pre) row). { intros X. apply IR in X as (l' & X & _). assert (length pre < length pre)%nat by (apply nth_error_Some; congruence). lia. }
      assert (LTp : forall i, In i row -> (i < length pre)%nat). { intros i Hi. apply IR in Hi as (l' & Hi & _). apply nth_error_Some. congruence. }
      apply memb_false in NI. apply G1 in E. rewrite NI in E. cbn [negb] in E. rewrite Bool.andb_true_r in E. unfold get in E. rewrite Hf in E. injection E as ->.
      assert (N : forall i l', nth_error (pre ++ [l]) i = Some l' <-> nth_error pre i = Some l' \/ (i = length pre /\ l' = l)).
      { intros i l'. destruct (Nat.lt_ge_cases i (length pre)) as [Li|Li].
        - rewrite nth_error_app1 by auto. split; auto. intros [X|[-> _]]; auto; lia.
        - rewrite nth_error_app2 by auto. split.
          + destruct (i - length pre)%nat as [|d] eqn:Ed; [|destruct d; discriminate]. intros X. injection X as ->. right. split; auto. lia.
          + intros [X|[-> ->]]; [assert (i < length pre)%nat by (apply nth_error_Some; congruence); lia|]. now rewrite Nat.sub_diag. }
      split.
      * destruct (memb f l); auto. clear - SR LTp. induction row as [|x row IH]; cbn [app]; [repeat constructor|]. inversion SR; subst. constructor.
        { apply IH; auto. intros i Hi. apply LTp. now right. } apply Forall_app. split; auto. constructor; auto. apply LTp. now left.
      * intros i. destruct (memb f l) eqn:M.
        -- rewrite in_app_iff, IR. split.
           ++ intros [(l' & A & B)|[<-|[]]]; [exists l'; rewrite N; auto|]. exists l. rewrite N. apply memb_In in M. auto.
           ++ intros (l' & A & B). apply N in A as [A|[-> ->]]; [left; eauto|right; now left].
        -- rewrite IR. split; intros (l' & A & B); exists l'; [rewrite N; auto|]. apply N in A as [A|[-> ->]]; auto. apply memb_false in M. contradiction.
    + rewrite app_length in E'. cbn [length] in E'. rewrite Nat.add_1_r in E'. exists T'. split; auto. now rewrite <- app_assoc in R'.
Qed.
Lemma rows_nil nf : rows nf [] (repeat [] nf).
Proof.
  split; [apply repeat_length|]. intros f row H. apply nth_error_In, repeat_spec in H. subst row. split; [constructor|]. intros i. split; [intros []|]. intros (l & E & _). destruct i; discriminate.
Qed.

(** *** Methods *)
Lemma nats_ok l : nats (map Z.of_nat l) = Some l.
Proof. unfold nats. induction l as [|x l IH]; cbn [map omap]; auto. destruct (Z.ltb_spec (Z.of_nat x) 0); [lia|]. rewrite Nat2Z.id. cbn [obind]. now rewrite IH. Qed.

Lemma flat_flatten l : flat l = Order_model.flatten l.
Proof. induction l as [|[a b] l IH]; cbn; congruence. Qed.
Lemma flat_chain l a b : Order_thm.chain (flat l) a b <-> clos_trans nat (fun j k => In (j, k) l) a b.
Proof. unfold Order_thm.chain. rewrite flat_flatten. apply Order_thm.tc_iff. intros x y. apply Order_thm.flatten_pairs. Qed.
Lemma flat_wf m n : (forall j k, In (j, k) (m_ord m) -> (j < n /\ k < n)%nat) -> Order_thm.wf_ord n (flat (m_ord m)).
Proof.
  intros H. rewrite flat_flatten. split; [apply Order_thm.flatten_even|]. intros x Hx. apply Order_thm.flatten_in in Hx as (a & b & I & D). apply H in I. destruct D; subst; tauto.
Qed.

Record rm_ok (m : method) (r : rmethod) : Prop := {
  ro_task : rm_task r = Z.of_nat (m_task m); ro_subs : rm_subs r = map Z.of_nat (m_subs m);
  ro_wf : Order_thm.wf_ord (length (m_subs m)) (rm_ord r);
  ro_chain : forall j k, Order_thm.chain (rm_ord r) j k <-> m_lt m j k }.

Definition ord_input (init : nat) (m : method) : nat * bool * list nat := (length (m_subs m), Nat.eqb (m_task m) init, flat (m_ord m)).

Section Methods.
Variable rest : text.
Lemma read_methods_ok init ms : forall r fl f, 
  (forall m, In m ms -> m_subs m <> [] /\ (forall j k, In (j, k) (m_ord m) -> (j < length (m_subs m) /\ k < length (m_subs m))%nat) /\ forall j, ~ m_lt m j j) ->
  Forall2 method_lines ms r -> pos rest f (concat r) ->
  exists rms fl' f', read_methods (length ms) (Z.of_nat init) fl f = ROk (rms, fl', f') /\ Forall2 rm_ok ms rms /\
    Order_model.readOrderings (map (ord_input init) ms) fl = Some (map rm_ord rms, fl').
Proof.
  induction ms as [|m ms IH]; intros r fl f H F P; inversion F as [|? ls ? r' ML F']; subst; cbn [length read_methods map Order_model.readOrderings].
  - exists [], fl, f. repeat split; auto.
  - cbn [concat] in P. destruct ML as (n & t & s & o & -> & T & SU & OR). cbn [app] in P.
    destruct (H m (or_introl eq_refl)) as (NE & WO & AC).
    apply getline_pos in P as [P _]. rewrite (proj1 P). apply getline_pos in P as [P L2]. rewrite L2, (read_int_ok _ _ _ T). cbn [rbind].
    apply getline_pos in P as [P L3]. rewrite L3, (read_int_list_ok _ _ (nat_line _ _ SU)). cbn [rbind].
    destruct (map Z.of_nat (m_subs m)) as [|z0 zs] eqn:ES; [destruct (m_subs m); [congruence|discriminate]|]. rewrite <- ES.
    apply getline_pos in P as [P L4]. rewrite L4, (read_int_list_ok _ _ (nat_line _ _ OR)). cbn [rbind]. rewrite nats_ok. cbn [known rbind]. rewrite map_length.
    replace (Z.of_nat (m_task m) =? Z.of_nat init)%Z with (Nat.eqb (m_task m) init) by (destruct (Nat.eqb_spec (m_task m) init); destruct (Z.eqb_spec (Z.of_nat (m_task m)) (Z.of_nat init)); auto; lia).
    destruct (Order_thm.reduction_exact (length (m_subs m)) (Nat.eqb (m_task m) init) (flat (m_ord m)) fl (flat_wf m _ WO)) as (o' & fl1 & E & W' & CH & _).
    { intros x X. apply (AC x). now apply flat_chain in X. }
    unfold ord_input at 1. rewrite E. cbn [known rbind obind].
    destruct (IH r' fl1 (getline (getline (getline (getline f))))) as (rms & fl' & f' & -> & F2 & RO).
    { intros x Hx. apply H. now right. } { auto. } { auto. }
    cbn [rbind]. rewrite RO. cbn [obind]. eexists _, fl', f'. split; [reflexivity|]. split; auto. constructor; auto.
    constructor; cbn [rm_task rm_subs rm_ord]; auto. intros j k. rewrite CH. apply flat_chain.
Qed.
End Methods.

Lemma method_of_ok m r : rm_ok m r -> exists m', method_of r = Some m' /\ same_method m m' /\ (forall j k, In (j, k) (m_ord m') -> (j < length (m_subs m') /\ k < length (m_subs m'))%nat).
Proof.
  intros [T SU W CH]. unfold method_of. rewrite SU, nats_ok, T. cbn [obind]. destruct (Order_thm.pairs_of_ok (rm_ord r)) as (ps & -> & PI); [apply W|]. cbn [obind].
  destruct (Z.ltb_spec (Z.of_nat (m_task m)) 0); [lia|]. rewrite Nat2Z.id. eexists. split; [reflexivity|]. split.
  - constructor; cbn [m_task m_subs m_ord]; auto. intros j k. rewrite <- CH. unfold m_lt, Order_thm.chain. apply Order_thm.tc_iff. intros x y. symmetry. apply PI.
  - cbn [m_subs m_ord]. intros j k I. apply PI in I. exact (Order_thm.pair_in_lt _ _ _ _ W I).
Qed.

(** *** The file *)
Definition stored (D : description) (c : classical) : Prop :=
  cl_nf c = d_nf D /\ length (cl_varof c) = d_nf D /\ (forall j o, nth_error (cl_varof c) j = Some o -> is_var_of (d_vars D) j o) /\
  cl_strict c = d_strict D /\ cl_mutex c = d_mutex D /\ cl_inv c = d_inv D /\
  cl_acts c = map (fun a => dedup (raw a)) (d_acts D) /\
  rows (d_nf D) (map da_prec (d_acts D)) (cl_pre2a c) /\ rows (d_nf D) (map (fun a => plain (da_add a)) (d_acts D)) (cl_add2a c) /\
  rows (d_nf D) (map (fun a => plain (da_del a)) (d_acts D)) (cl_del2a c) /\
  cl_s0 c = map Z.of_nat (d_s0 D) /\ cl_goal c = map Z.of_nat (d_goal D) /\ cl_prim c = map negb (d_abstract D).

Lemma rows_same nf L1 L2 T : Forall2 (fun l1 l2 => forall f : nat, In f l1 <-> In f l2) L1 L2 -> rows nf L1 T -> rows nf L2 T.
Proof.
  intros F [LT R]. split; auto. intros f row E. destruct (R f row E) as [S I]. split; auto. intros i. rewrite I. clear - F. revert i. induction F as [|a b L1 L2 H F IH]; intros i; [tauto|]. destruct i as [|i]; cbn; [|apply IH].
  split; intros (l & E & Hf); injection E as <-; eexists; (split; [reflexivity|]); now apply H.
Qed.

Lemma plain_in e es : In e (plain es) -> In e (map snd es).
Proof. unfold plain. rewrite !in_map_iff. intros (x & <- & H). apply filter_In in H as [H _]. eauto. Qed.

Section Whole.
Variable rest : text.
Lemma singles {A} (R : A -> text -> Prop) l ts : Forall2 R l ts -> Forall2 (fun a ls => exists t, ls = [t] /\ R a t) l (map (fun t => [t]) ts) /\ concat (map (fun t => [t]) ts) = ts.
Proof. induction 1 as [|a t l ts H F [IH1 IH2]]; cbn; [auto|]. split; [constructor; eauto|now rewrite IH2]. Qed.

Lemma read_ok D f h ls : wf_description D -> file_lines D ls -> pos rest f ls -> h = getline f -> exists c rms fl,
  ('(c, f) <~ read_classical {| f_rest := f_rest h; f_eof := f_eof h; f_line := [] |} ;;
   h <~ read_hierarchical {| f_rest := f_rest f; f_eof := f_eof f; f_line := [] |} ;; ROk (c, h)) = ROk (c, Some (Z.of_nat (d_init D), rms, fl)) /\
  stored D c /\ Forall2 rm_ok (d_methods D) rms /\ Order_model.readOrderings (map (ord_input (d_init D)) (d_methods D)) Order_model.flags0 = Some (map rm_ord rms, fl).
Proof.
  intros WD (h0 & lf & facts & a1 & a2 & lv & vars & b1 & b2 & i1 & i2 & i3 & la & acts & c1 & c2 & s0 & c3 & c4 & g & c5 & c6 & lt & tasks & c7 & lin & c8 & c9 & lm & methods & -> &
    NF & LF & NV & VS & I1 & I2 & I3 & NA & (ra & FA & ->) & S0 & G & NT & TS & IN & NM & (rm & FM & ->)) P ->.
  pose proof (wd_problem _ WD) as WP. cbn [app] in P. apply getline_pos in P as [P _].
  remember {| f_rest := f_rest (getline f); f_eof := f_eof (getline f); f_line := [] |} as g0 eqn:Eg0.
  assert (P0 : pos rest g0 (lf :: facts ++ a1 :: a2 :: lv :: vars ++ b1 :: b2 :: i1 ++ i2 ++ i3 ++ la :: concat ra ++ c1 :: c2 :: s0 :: c3 :: c4 :: g :: c5 :: c6 :: lt :: tasks ++ [] :: c7 :: lin :: c8 :: c9 :: lm :: concat rm)) by (rewrite Eg0; exact P).
  clear P Eg0 f. unfold read_classical. apply getline_pos in P0 as [P L]. rewrite L, (read_size_ok _ _ NF). cbn [rbind].
  apply (getlines_pos rest (d_nf D) _ facts) in P; [|exact LF]. apply (getlines_last rest 2 _ [a1; a2]) in P as [P L']; [|reflexivity]. rewrite L', (read_size_ok _ _ NV). cbn [rbind]. clear L L'.
  match type of P with pos _ ?x _ => remember x as f1 eqn:E1 end. clear E1.
  destruct (singles _ _ _ VS) as [VS' VC].
  destruct (repeat_read_ok rest read_var (fun v ls => exists t, ls = [t] /\ begins t [Z.of_nat (fst v); Z.of_nat (snd v)]) zvar (d_vars D)) with (r := map (fun t => [t]) vars)
    (ls' := b1 :: b2 :: i1 ++ i2 ++ i3 ++ la :: concat ra ++ c1 :: c2 :: s0 :: c3 :: c4 :: g :: c5 :: c6 :: lt :: tasks ++ [] :: c7 :: lin :: c8 :: c9 :: lm :: concat rm) (f := f1) as (f2 & E2 & P2); auto.
  { intros v ls ls' f0 _ (t & -> & B) P0. cbn [app] in P0. destruct (read_var_ok rest f0 v t ls' B P0) as (f' & E & P'). exists f'. auto. }
  { change (fun t : list ascii => [t]) with (fun t : text => [t]). unfold text in *. now rewrite VC. }
  rewrite E2. cbn [rbind]. clear E2 P f1.
  destruct (mark_vars_ok (d_vars D) (repeat None (d_nf D)) []) as (varof & EV & LV & HV).
  { intros v Hv. rewrite repeat_length. now apply (wd_vars _ WD). }
  { intros k o Hk. unfold get in Hk. apply nth_error_In, repeat_spec in Hk. subst o. intros i (v & Hv & _). destruct i; discriminate. }
  cbn [length] in EV. rewrite EV. cbn [rbind]. rewrite repeat_length in LV. cbn [app] in HV.
  apply (getlines_pos rest 2 _ [b1; b2]) in P2; [|reflexivity].
  apply (read_info_ok rest _ _ _ _ I1) in P2 as (f3 & E3 & P). rewrite E3. cbn [rbind]. clear E3.
  apply (read_info_ok rest _ _ _ _ I2) in P as (f4 & E4 & P). rewrite E4. cbn [rbind]. clear E4.
  apply (read_info_ok rest _ _ _ _ I3) in P as (f5 & E5 & P). rewrite E5. cbn [rbind]. clear E5 f2 f3 f4.
  apply getline_pos in P as [P L]. rewrite L, (read_size_ok _ _ NA). cbn [rbind]. clear L.
  match type of P with pos _ ?x _ => remember x as f1 eqn:E1 end. clear E1 f5.
  destruct (repeat_read_ok rest read_action action_lines raw (d_acts D)) with (r := ra)
    (ls' := c1 :: c2 :: s0 :: c3 :: c4 :: g :: c5 :: c6 :: lt :: tasks ++ [] :: c7 :: lin :: c8 :: c9 :: lm :: concat rm) (f := f1) as (f2 & E2 & P2); auto.
  { intros a ls ls' f0 _ A P0. apply (read_action_ok rest f0 a ls ls' A P0). }
  rewrite E2. cbn [rbind]. rewrite (map_map raw dedup). clear E2 P f1.
  set (acts := map (fun a => dedup (raw a)) (d_acts D)).
  assert (EP : exists qs, map ra_prec acts = map (map Z.of_nat) qs /\ Forall2 (fun q a => NoDup q /\ forall f : nat, In f q <-> In f a) qs (map da_prec (d_acts D))).
  { unfold acts. clear. generalize (d_acts D) as L. induction L as [|a l IH]; [exists []; split; [reflexivity|constructor]|]. destruct IH as (qs & E & F). destruct (dedup_ok a) as (q & Q & ND & I). exists (q :: qs). cbn [map]. rewrite Q, E. split; auto. }
  destruct EP as (qs & EP & FQ).
  assert (EA : map ra_add acts = map (map Z.of_nat) (map (fun a => plain (da_add a)) (d_acts D))). { unfold acts. rewrite !map_map. apply map_ext. reflexivity. }
  assert (ED : map ra_del acts = map (map Z.of_nat) (map (fun a => plain (da_del a)) (d_acts D))). { unfold acts. rewrite !map_map. apply map_ext. reflexivity. }
  destruct (to_action_ok (d_nf D) qs [] (repeat [] (d_nf D))) as (p2a & Ep2a & Rp2a); [|apply rows_nil|].
  { intros l x Hl Hx. destruct (In_nth_error _ _ Hl) as (i & Hi). assert (X : exists a, In a (map da_prec (d_acts D)) /\ In x a).
    { clear - FQ Hi Hx. revert i Hi. induction FQ as [|q a qs l' [_ I] F IH]; intros i Hi; [destruct i; discriminate|]. destruct i as [|i]; cbn in Hi; [injection Hi as ->; exists a; split; [now left|now apply I]|]. destruct (IH _ Hi) as (a' & A & B). exists a'. split; auto. now right. }
    destruct X as (a & Ha & Hxa). apply (wf_facts _ WP a x); auto. }
  destruct (to_action_ok (d_nf D) (map (fun a => plain (da_add a)) (d_acts D)) [] (repeat [] (d_nf D))) as (a2a & Ea2a & Ra2a); [|apply rows_nil|].
  { intros l x Hl Hx. apply in_map_iff in Hl as (a & <- & Ha). apply plain_in in Hx. apply (wf_facts _ WP (map snd (da_add a)) x); auto. right. left. cbn [described p_add]. apply in_map_iff. eauto. }
  destruct (to_action_ok (d_nf D) (map (fun a => plain (da_del a)) (d_acts D)) [] (repeat [] (d_nf D))) as (d2a & Ed2a & Rd2a); [|apply rows_nil|].
  { intros l x Hl Hx. apply in_map_iff in Hl as (a & <- & Ha). apply plain_in in Hx. apply (wf_facts _ WP (map snd (da_del a)) x); auto. right. right. cbn [described p_del]. apply in_map_iff. eauto. }
  cbn [length app] in Ep2a, Rp2a, Ea2a, Ra2a, Ed2a, Rd2a. rewrite EP, Ep2a, EA, Ea2a, ED, Ed2a. cbn [known rbind].
  apply (getlines_last rest 2 _ [c1; c2]) in P2 as [P L]; [|reflexivity]. rewrite L, (read_int_list_ok _ _ (nat_line _ _ S0)). cbn [rbind].
  apply (getlines_last rest 2 _ [c3; c4]) in P as [P L1]; [|reflexivity]. rewrite L1, (read_int_list_ok _ _ (nat_line _ _ G)). cbn [rbind].
  apply (getlines_last rest 2 _ [c5; c6]) in P as [P L2]; [|reflexivity]. rewrite L2, (read_size_ok _ _ NT). cbn [rbind].
  apply (read_tasks_ok rest _ _ None _ _ TS) in P as (f3 & E3 & P). rewrite E3. cbn [rbind]. clear L L1 L2 E3 f2.
  unfold read_hierarchical.
  remember {| f_rest := f_rest f3; f_eof := f_eof f3; f_line := [] |} as f4 eqn:E4.
  assert (P4 : pos rest f4 ([] :: c7 :: lin :: c8 :: c9 :: lm :: concat rm)) by (rewrite E4; exact P). clear P E4 f3.
  apply getline_pos in P4 as [P L]. rewrite L. rewrite (proj1 P). apply getline_pos in P as [P _]. rewrite (proj1 P). apply getline_pos in P as [P L1]. rewrite (proj1 P). rewrite L1, (read_int_ok _ _ _ IN). cbn [rbind].
  apply (getlines_last rest 2 _ [c8; c9]) in P as [P L2]; [|reflexivity]. rewrite L2, (read_size_ok _ _ NM). cbn [rbind].
  destruct (fun H => read_methods_ok rest (d_init D) (d_methods D) rm Order_model.flags0 _ H FM P) as (rms & fl & f5 & -> & FR & RO).
  { intros m Hm. pose proof (wf_methods _ WP m Hm) as WM. split; [apply WM|]. split; [apply WM|apply WM]. }
  cbn [rbind]. eexists _, rms, fl. split; [reflexivity|]. split; [|auto].
  unfold stored. cbn [cl_nf cl_varof cl_strict cl_mutex cl_inv cl_acts cl_pre2a cl_add2a cl_del2a cl_s0 cl_goal cl_prim]. repeat (split; [auto; fail|]).
  split; [|auto 10]. eapply rows_same; [|exact Rp2a]. revert FQ. clear. induction 1; constructor; tauto.
Qed.
End Whole.

(** *** The problem *)
Lemma omap_forall2 {A B C} (g : B -> option C) (R : A -> B -> Prop) (R' : A -> C -> Prop) (l : list A) (m : list B) :
  (forall a b, R a b -> exists c, g b = Some c /\ R' a c) -> Forall2 R l m -> exists k, omap g m = Some k /\ Forall2 R' l k.
Proof.
  intros H F. induction F as [|a b l m HR F (k & E & F')]; [exists []; auto|]. cbn [omap]. destruct (H _ _ HR) as (c & -> & HC). cbn [obind]. rewrite E. cbn [obind]. eauto.
Qed.
Lemma omap_nats {A} (g : A -> list Z) (h : A -> list nat) l : (forall a, In a l -> g a = map Z.of_nat (h a)) -> omap (fun a => nats (g a)) l = Some (map h l).
Proof.
  induction l as [|a l IH]; intros H; cbn [omap map]; auto. rewrite (H a), nats_ok by now left. cbn [obind]. rewrite IH; auto. intros x Hx. apply H. now right.
Qed.
Lemma omap_map' {A B C} (g : B -> option C) (h : A -> B) l : omap g (map h l) = omap (fun a => g (h a)) l.
Proof. induction l as [|a l IH]; cbn [omap map]; auto. now rewrite IH. Qed.

Lemma problem_of_ok D c rms : stored D c -> Forall2 rm_ok (d_methods D) rms -> exists P, problem_of c (Z.of_nat (d_init D)) rms = Some P /\ reads D P /\
  forall m, In m (p_methods P) -> forall j k, In (j, k) (m_ord m) -> (j < length (m_subs m) /\ k < length (m_subs m))%nat.
Proof.
  intros (NF & _ & _ & _ & _ & _ & AC & _ & _ & _ & S0 & G & PR) FM. unfold problem_of. rewrite AC, S0, G, NF, PR, !nats_ok, !omap_map'.
  assert (EP : exists qs, omap (fun a => nats (ra_prec (dedup (raw a)))) (d_acts D) = Some qs /\ Forall2 (fun a l => NoDup l /\ forall f, In f l <-> In f (da_prec a)) (d_acts D) qs).
  { apply (omap_forall2 (fun a => nats (ra_prec (dedup (raw a)))) eq). { intros a ? <-. destruct (dedup_ok a) as (q & -> & ND & I). rewrite nats_ok. eauto. } clear. induction (d_acts D); constructor; auto. }
  destruct EP as (qs & -> & FQ). cbn [obind].
  rewrite (omap_nats (fun a => ra_add (dedup (raw a))) (fun a => plain (da_add a))) by reflexivity. cbn [obind].
  rewrite (omap_nats (fun a => ra_del (dedup (raw a))) (fun a => plain (da_del a))) by reflexivity. cbn [obind].
  rewrite map_map. replace (map (fun x => ra_cost (dedup (raw x))) (d_acts D)) with (map Z.of_nat (map da_cost (d_acts D))) by (rewrite map_map; reflexivity). rewrite nats_ok. cbn [obind].
  destruct (omap_forall2 method_of rm_ok (fun m m' => same_method m m' /\ forall j k, In (j, k) (m_ord m') -> (j < length (m_subs m') /\ k < length (m_subs m'))%nat) (d_methods D) rms) as (ml & -> & FL); auto.
  { intros m r R. apply method_of_ok in R as (m' & E & SM & B). eauto. }
  cbn [obind]. destruct (Z.ltb_spec (Z.of_nat (d_init D)) 0); [lia|]. rewrite Nat2Z.id. eexists. split; [reflexivity|]. split.
  - constructor; cbn; auto. revert FL. clear. induction 1; constructor; tauto.
  - cbn [p_methods]. revert FL. clear. induction 1 as [|m m' l l' [_ B] F IH]; intros x []; subst; auto.
Qed.

(** *** Problems with the same meaning *)
Record similar (P P' : problem) : Prop := {
  si_nf : p_nfacts P = p_nfacts P'; si_prim : p_prim P = p_prim P';
  si_prec : Forall2 (fun l l' => forall f, In f l <-> In f l') (p_prec P) (p_prec P');
  si_add : p_add P = p_add P'; si_del : p_del P = p_del P'; si_cost : p_cost P = p_cost P';
  si_methods : Forall2 same_method (p_methods P) (p_methods P'); si_init : p_init P = p_init P'; si_s0 : p_s0 P = p_s0 P'; si_goal : p_goal P = p_goal P' }.

Lemma forall2_flip {A B} (R : A -> B -> Prop) (R' : B -> A -> Prop) l m : (forall a b, R a b -> R' b a) -> Forall2 R l m -> Forall2 R' m l.
Proof. induction 2; constructor; auto. Qed.
Lemma similar_sym P P' : similar P P' -> similar P' P.
Proof.
  intros []. constructor; auto.
  - revert si_prec0. apply forall2_flip. intros a b H f. symmetry. apply H.
  - revert si_methods0. apply forall2_flip. intros a b [A B C]. constructor; auto. intros j k. symmetry. apply C.
Qed.
Lemma forall2_in {A B} (R : A -> B -> Prop) l m a : Forall2 R l m -> In a l -> exists b, In b m /\ R a b.
Proof. induction 1 as [|x y l m H F IH]; intros []; [subst; exists y; split; [now left|auto]|]. destruct IH as (b & I & Hb); auto. exists b. split; [now right|auto]. Qed.
Lemma forall2_nth {A B} (R : A -> B -> Prop) l m i a : Forall2 R l m -> nth_error l i = Some a -> exists b, nth_error m i = Some b /\ R a b.
Proof. intros F. revert i. induction F as [|x y l m H F IH]; intros [|i] E; try discriminate; cbn in *; [injection E as ->; eauto|auto]. Qed.

Lemma similar_decomposes P P' tn x m tn' : similar P P' -> decomposes P tn x m tn' -> exists m', decomposes P' tn x m' tn'.
Proof.
  intros SI [IM IX LX IN LO LN OR]. destruct (forall2_in _ _ _ _ (si_methods _ _ SI) IM) as (m' & IM' & [T S L]). exists m'. constructor; auto.
  - congruence.
  - intros y. rewrite IN, S. tauto.
  - intros j t. rewrite <- S. auto.
  - intros y z. rewrite OR, S. assert (Q : forall j k, m_lt m j k <-> m_lt m' j k) by auto. split; (intros [H|[(j & k & H1 & H2 & H3 & H4 & H5)|H]]; [auto| |auto]); right; left; exists j, k; repeat (split; auto); now apply Q.
Qed.
Lemma similar_refines P P' tn tn' : similar P P' -> refines P tn tn' -> refines P' tn tn'.
Proof. intros SI. induction 1 as [|tn x m tn' tn'' D R IH]; [constructor|]. destruct (similar_decomposes _ _ _ _ _ _ SI D) as (m' & D'). econstructor; eauto. Qed.
Lemma similar_precs P P' a f : similar P P' -> precs P a f -> precs P' a f.
Proof. intros SI (l & E & I). destruct (forall2_nth _ _ _ _ _ (si_prec _ _ SI) E) as (l' & E' & Q). exists l'. split; auto. now apply Q. Qed.
Lemma similar_result P P' s a : similar P P' -> result P s a = result P' s a.
Proof. intros SI. unfold result, adds, dels. now rewrite (si_add _ _ SI), (si_del _ _ SI). Qed.
Lemma similar_exec P P' plan : similar P P' -> forall s, executable P s plan -> executable P' s plan.
Proof.
  intros SI. induction plan as [|a plan IH]; intros s; cbn [executable]; auto. intros [A E]. split.
  - intros f H. apply A. revert H. apply similar_precs. now apply similar_sym.
  - rewrite <- (similar_result P P') by auto. auto.
Qed.
Lemma similar_after P P' plan : similar P P' -> forall s, after P s plan = after P' s plan.
Proof. intros SI. induction plan as [|a plan IH]; intros s; cbn [after]; auto. now rewrite (similar_result P P'). Qed.
Lemma similar_solution P P' plan : similar P P' -> solution P plan -> solution P' plan.
Proof.
  intros SI (tn & L & R & PR & LI & EP & EX & G). unfold solution, solves, initial_state, initial_network in *. rewrite <- (si_s0 _ _ SI), <- (si_init _ _ SI). exists tn, L.
  split; [eapply similar_refines; eauto|]. split. { unfold primitive. rewrite <- (si_prim _ _ SI). exact PR. } split; auto. split; auto. split; [eapply similar_exec; eauto|].
  unfold goal_state. rewrite <- (si_goal _ _ SI), <- (similar_after P P') by auto. exact G.
Qed.
Lemma similar_wf P P' : similar P P' -> (forall m, In m (p_methods P') -> forall j k, In (j, k) (m_ord m) -> (j < length (m_subs m) /\ k < length (m_subs m))%nat) -> wf_problem P -> wf_problem P'.
Proof.
  intros SI B [W1 W2 W3 W4 W5 W6 W7 W8 W9]. constructor.
  - rewrite <- (si_cost _ _ SI), <- W1. symmetry. pose proof (si_prec _ _ SI) as F. clear - F. induction F; cbn; auto.
  - rewrite <- (si_cost _ _ SI), <- (si_add _ _ SI). auto.
  - rewrite <- (si_cost _ _ SI), <- (si_del _ _ SI). auto.
  - rewrite <- (si_cost _ _ SI), <- (si_prim _ _ SI). auto.
  - intros l f [I|I] Hf; rewrite <- (si_nf _ _ SI).
    + destruct (forall2_in _ _ _ _ (si_prec _ _ (similar_sym _ _ SI)) I) as (l' & I' & Q). apply (W5 l'); auto. now apply Q.
    + rewrite <- (si_add _ _ SI), <- (si_del _ _ SI) in I. apply (W5 l); auto.
  - rewrite <- (si_nf _ _ SI), <- (si_s0 _ _ SI). auto.
  - rewrite <- (si_nf _ _ SI), <- (si_goal _ _ SI). auto.
  - rewrite <- (si_prim _ _ SI), <- (si_init _ _ SI). auto.
  - intros m Hm. destruct (forall2_in _ _ _ _ (si_methods _ _ (similar_sym _ _ SI)) Hm) as (m0 & I0 & [T S L]). destruct (W9 m0 I0) as [A1 A2 A3 A4 A5]. constructor.
    + rewrite <- (si_prim _ _ SI), T. auto.
    + rewrite <- (si_prim _ _ SI), S. auto.
    + now rewrite S.
    + now apply B.
    + intros j. rewrite L. auto.
Qed.

(** With the unconditional effects only *)
Definition dropped (D : description) : problem :=
  {| p_nfacts := d_nf D; p_prim := map negb (d_abstract D); p_prec := map da_prec (d_acts D); p_add := map (fun a => plain (da_add a)) (d_acts D);
     p_del := map (fun a => plain (da_del a)) (d_acts D); p_cost := map da_cost (d_acts D); p_methods := d_methods D; p_init := d_init D;
     p_s0 := d_s0 D; p_goal := d_goal D |}.
Lemma dropped_wf D : wf_problem (described D) -> wf_problem (dropped D).
Proof.
  intros [W1 W2 W3 W4 W5 W6 W7 W8 W9]. constructor; auto; cbn in *; rewrite ?map_length in *; auto.
  - intros l f I Hf. destruct I as [I|[I|I]].
    + apply (W5 l); auto.
    + apply in_map_iff in I as (a & <- & Ha). apply plain_in in Hf. apply (W5 (map snd (da_add a))); auto. right. left. apply in_map_iff. eauto.
    + apply in_map_iff in I as (a & <- & Ha). apply plain_in in Hf. apply (W5 (map snd (da_del a))); auto. right. right. apply in_map_iff. eauto.
  - intros m Hm. destruct (W9 m Hm) as [A1 A2 A3 A4 A5]. constructor; auto.
Qed.
Lemma plain_all es : (forall e, In e es -> fst e = []) -> plain es = map snd es.
Proof. intros H. unfold plain. f_equal. induction es as [|e es IH]; cbn [filter]; auto. rewrite (H e) by now left. cbn. f_equal. apply IH. intros x Hx. apply H. now right. Qed.
Lemma dropped_described D : unconditional D -> dropped D = described D.
Proof.
  intros U. unfold dropped, described. f_equal; apply map_ext_in; intros a Ha; apply plain_all; intros e He; apply (U a e Ha); apply in_or_app; auto.
Qed.
Lemma reads_similar D P : reads D P -> similar (dropped D) P.
Proof.
  intros [A1 A2 A3 A4 A5 A6 A7 A8 A9 A10]. constructor; cbn; auto. revert A3. clear. generalize (p_prec P). induction (d_acts D) as [|a l IH]; intros q F; inversion F as [|? ? ? ? [_ H] ?]; subst; constructor; auto. intros f. symmetry. auto.
Qed.

(** *** Written descriptions *)
Lemma show_numeral fuel : forall n, (n <= fuel)%nat -> numeral (show fuel n) n.
Proof.
  induction fuel as [|f IH]; intros n L; cbn [show].
  - assert (n = 0%nat) as -> by lia. constructor. lia.
  - destruct (Nat.ltb_spec n 10); [now constructor|]. rewrite (Nat.div_mod n 10) at 3 by lia. constructor; [|apply Nat.mod_upper_bound; lia]. apply IH. assert (n / 10 < n)%nat by (apply Nat.div_lt; lia). lia.
Qed.
Lemma show_int_text z : -2147483648 <= z <= 2147483647 -> int_text (show_int z) z.
Proof.
  intros B. unfold show_int. destruct (Z.ltb_spec z 0).
  - replace z with (- Z.of_nat (Z.to_nat (- z))) at 3 by lia. constructor; [now apply show_numeral|lia].
  - replace z with (Z.of_nat (Z.to_nat z)) at 3 by lia. constructor; [now apply show_numeral|lia].
Qed.
Definition bounded (zs : list Z) : Prop := forall z, In z zs -> -2147483648 <= z <= 2147483647.
Lemma line_begins zs : bounded zs -> begins (line zs) zs.
Proof.
  induction zs as [|z zs IH]; intros B; [constructor|]. unfold line. cbn [map concat]. change (" "%char :: show_int z) with ([" "%char] ++ show_int z). rewrite <- app_assoc. constructor.
  - constructor; [now left|constructor].
  - apply show_int_text. apply B. now left.
  - destruct zs as [|y zs]; [now left|]. right. cbn [map concat app]. eexists _, _. split; [reflexivity|now left].
  - apply IH. intros x Hx. apply B. now right.
Qed.
Lemma digit_char_newline d : digit_char d <> newline.
Proof. unfold digit_char. do 10 (destruct d as [|d]; [discriminate|]). destruct d; discriminate. Qed.
Lemma show_newline f : forall n, ~ In newline (show f n).
Proof.
  induction f as [|f IH]; intros n; cbn [show].
  - intros [H|[]]. now apply digit_char_newline in H.
  - destruct (Nat.ltb n 10).
    + intros [H|[]]. now apply digit_char_newline in H.
    + intros H. apply in_app_or in H as [H|[H|[]]]; [now apply IH in H|now apply digit_char_newline in H].
Qed.
Lemma line_newline zs : ~ In newline (line zs).
Proof.
  unfold line. intros H. apply in_concat in H as (x & Hx & H). apply in_map_iff in Hx as (z & <- & _). destruct H as [H|H]; [discriminate|]. unfold show_int in H. destruct (z <? 0); [destruct H as [H|H]; [discriminate|]|]; now apply show_newline in H.
Qed.

Lemma forall2_map {A B} (R : A -> B -> Prop) (g : A -> B) l : (forall a, In a l -> R a (g a)) -> Forall2 R l (map g l).
Proof. induction l as [|a l IH]; intros H; cbn; constructor; [apply H; now left|]. apply IH. intros x Hx. apply H. now right. Qed.
Lemma forall2_map_r {A B} (R : B -> A -> Prop) (g : A -> B) l : (forall a, In a l -> R (g a) a) -> Forall2 R (map g l) l.
Proof. induction l as [|a l IH]; intros H; cbn; constructor; [apply H; now left|]. apply IH. intros x Hx. apply H. now right. Qed.

Lemma write_describes D : in_range D -> describes (write D) D.
Proof.
  intros B. exists (map line (file_numbers D)), []. split; [|split; [intros l Hl; apply in_map_iff in Hl as (z & <- & _); apply line_newline|now rewrite app_nil_r]].
  assert (BL : forall l, In l (file_numbers D) -> begins (line l) l). { intros l Hl. apply line_begins. intros z Hz. now apply (B l). } clear B.
  unfold file_numbers in *. rewrite !map_app, !concat_map, !map_map.
  set (G := fun (x : list (list Z)) => forall l, In l x -> begins (line l) l). change (G ([[]; [Z.of_nat (d_nf D)]] ++ repeat [] (d_nf D) ++ [[]; []; [Z.of_nat (length (d_vars D))]] ++ map (fun v => [Z.of_nat (fst v); Z.of_nat (snd v)]) (d_vars D) ++ [[]; []] ++
  info_numbers (d_strict D) ++ info_numbers (d_mutex D) ++ info_numbers (d_inv D) ++ [[Z.of_nat (length (d_acts D))]] ++ concat (map action_numbers (d_acts D)) ++
  [[]; []; nat_list (d_s0 D); []; []; nat_list (d_goal D); []; []; [Z.of_nat (length (d_abstract D))]] ++ map (fun b : bool => [if b then 1 else 0]%Z) (d_abstract D) ++
  [[]; []; [Z.of_nat (d_init D)]; []; []; [Z.of_nat (length (d_methods D))]] ++ concat (map method_numbers (d_methods D)))) in BL.
  assert (GA : forall x y, G (x ++ y) -> G x /\ G y). { unfold G. intros x y H. split; intros l Hl; apply H, in_or_app; auto. }
  apply GA in BL as [B1 BL]. apply GA in BL as [_ BL]. apply GA in BL as [B2 BL]. apply GA in BL as [B3 BL]. apply GA in BL as [_ BL]. apply GA in BL as [B4 BL]. apply GA in BL as [B5 BL]. apply GA in BL as [B6 BL].
  apply GA in BL as [B7 BL]. apply GA in BL as [B8 BL]. apply GA in BL as [B9 BL]. apply GA in BL as [B10 BL]. apply GA in BL as [B11 B12].
  assert (INFO : forall i, G (info_numbers i) -> info_lines i (map line (info_numbers i))).
  { intros i H. unfold info_numbers. cbn [map]. rewrite map_app. cbn [map]. exists (line [Z.of_nat (length i)]), (map line (map (fun j => map element j ++ [-1]) i)), (line []), (line []). split; auto. split.
    - apply H. now left.
    - rewrite map_map. apply forall2_map_r. intros j Hj. apply H. right. apply in_or_app. left. apply in_map_iff. eauto. }
  eexists _, _, _, _, _, _, _, _, _, _, _, _, _, _, _, _, _, _, _, _, _, _, _, _, _, _, _, _, _, _.
  split. { cbn [map app]. reflexivity. }
  split; [apply B1; cbn; auto|]. split; [now rewrite map_length, repeat_length|]. split; [apply B2; cbn; auto|].
  split. { apply forall2_map. intros v Hv. apply B3. apply in_map_iff. eauto. }
  split; [now apply INFO|]. split; [now apply INFO|]. split; [now apply INFO|]. split; [apply B7; now left|].
  split. { eexists. split; [|reflexivity]. apply forall2_map. intros a Ha. unfold action_numbers. cbn [map]. eexists _, _, _, _. split; [reflexivity|].
    assert (Q : forall l, In l (action_numbers a) -> begins (line l) l). { intros l Hl. apply B8. apply in_concat. exists (action_numbers a). split; auto. now apply in_map. }
    unfold number_line, nat_list_line, effect_line. split; [|split; [|split]]; apply Q; cbn; auto 10. }
  split; [apply B9; cbn; auto 10|]. split; [apply B9; cbn; auto 10|]. split; [apply B9; cbn; auto 12|].
  split. { apply forall2_map. intros b Hb. unfold number_line. replace (Z.of_nat (if b then 1 else 0)%nat) with (if b then 1 else 0) by now destruct b. apply B10. apply in_map_iff. eauto. }
  split; [apply B11; cbn; auto 10|]. split; [apply B11; cbn; auto 10|].
  eexists. split; [|reflexivity]. apply forall2_map. intros m Hm. unfold method_numbers. cbn [map]. eexists _, _, _, _. split; [reflexivity|].
  assert (Q : forall l, In l (method_numbers m) -> begins (line l) l). { intros l Hl. apply B12. apply in_concat. exists (method_numbers m). split; auto. now apply in_map. }
  unfold number_line, nat_list_line. split; [|split]; apply Q; cbn; auto 10.
Qed.

(** *** The loop of readIntList *)
Lemma skip_length s : (length (skip_space s) <= length s)%nat.
Proof. induction s as [|c s IH]; cbn [skip_space length]; auto. destruct (is_space c); cbn [length]; lia. Qed.
Lemma digits_length s : forall any v a z r, digits s any v = (a, z, r) -> (length r <= length s)%nat /\ (any = false -> a = true -> length r < length s)%nat.
Proof.
  induction s as [|c s IH]; intros any v a z r; cbn [digits].
  - intros [= <- <- <-]. split; [lia|]. intros -> [=].
  - destruct (digit c).
    + intros E. apply IH in E as [L _]. cbn [length]. split; intros; lia.
    + intros [= <- <- <-]. split; [lia|]. intros -> [=].
Qed.
Lemma extract_shrinks s x s' y : s_fail s = false -> extract s x = (s', y) -> s_fail s' = true \/ (length (s_rest s') < length (s_rest s))%nat.
Proof.
  unfold extract. intros ->. pose proof (skip_length (s_rest s)) as SL. destruct (skip_space (s_rest s)) as [|c r]; [intros Q; apply pair_equal_spec in Q as [<- _]; now left|].
  match goal with |- context [digits ?a ?b ?d] => destruct (digits a b d) as [[any v] q] eqn:E end. apply digits_length in E as [_ L].
  destruct any; [|intros Q; apply pair_equal_spec in Q as [<- _]; now left]. specialize (L eq_refl eq_refl).
  destruct (_ <? int_min); [intros Q; apply pair_equal_spec in Q as [<- _]; now left|]. destruct (int_max <? _); [intros Q; apply pair_equal_spec in Q as [<- _]; now left|]. intros Q; apply pair_equal_spec in Q as [<- _]. right. cbn [s_rest].
  destruct (Ascii.eqb c "-" || Ascii.eqb c "+")%bool; cbn [length] in *; lia.
Qed.
Lemma extract_some s z : exists s' x, extract s (Some z) = (s', Some x).
Proof.
  unfold extract. destruct (s_fail s); [eauto|]. destruct (skip_space (s_rest s)) as [|c r]; [eauto|]. destruct (digits _ _ _) as [[any v] q]. destruct any; [|eauto]. destruct (_ <? int_min); [eauto|]. destruct (int_max <? _); eauto.
Qed.
