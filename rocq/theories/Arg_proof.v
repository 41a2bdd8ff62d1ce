(** Proofs about the arguments of the heuristics. *)
From Coq Require Import Ascii String DecimalString DecimalNat Permutation.
From Verif Require Import Base.
From Verif Require Import Arg_spec Arg_model.
Local Open Scope string_scope.

Lemma app_nil_s s : s ++ "" = s. Proof. induction s; cbn; congruence. Qed.
Lemma app_assoc_s a b c : (a ++ b) ++ c = a ++ b ++ c. Proof. induction a; cbn; congruence. Qed.
Lemma app_empty_s a b : a ++ b = "" -> a = "" /\ b = "". Proof. destruct a; cbn; [auto|discriminate]. Qed.

Definition solid (s : string) : Prop := s <> "" /\ forall c, In c (chars s) -> is_space c = false.
Lemma words_cur w : (forall c, In c (chars w) -> is_space c = false) -> forall cur s, words cur (w ++ s) = words (cur ++ w) s.
Proof.
  induction w as [|c w IH]; intros H cur s; cbn [append]; [now rewrite app_nil_s|]. cbn [words]. rewrite (H c) by now left. rewrite IH by (intros c' Hc; apply H; now right). now rewrite app_assoc_s.
Qed.
Lemma words_one w : solid w -> words "" w = [w].
Proof. intros [N H]. rewrite <- (app_nil_s w) at 1. now rewrite words_cur. Qed.
Lemma words_more w s : solid w -> words "" (w ++ " " ++ s) = w :: words "" s.
Proof. intros [N H]. rewrite words_cur by auto. destruct w; [easy|reflexivity]. Qed.

Lemma replace_app a b s t : replace_char a b (s ++ t) = replace_char a b s ++ replace_char a b t.
Proof. induction s as [|c s IH]; cbn; congruence. Qed.
Lemma replace_id a b s : (forall c, In c (chars s) -> c <> a) -> replace_char a b s = s.
Proof.
  induction s as [|c s IH]; intros H; cbn; auto. rewrite IH by (intros c' Hc; apply H; now right). destruct (Ascii.eqb_spec c a) as [E|E]; auto. now elim (H c (or_introl eq_refl)).
Qed.
Lemma chars_app s t : chars (s ++ t) = (chars s ++ chars t)%list. Proof. induction s; cbn; congruence. Qed.

Lemma plain_space c : plain c -> is_space c = false.
Proof.
  intros (H & _). unfold is_space. destruct (Nat.eqb_spec (nat_of_ascii c) 32); [lia|]. destruct (Nat.leb_spec 9 (nat_of_ascii c)); cbn; auto. destruct (Nat.leb_spec (nat_of_ascii c) 13); cbn; auto. lia.
Qed.
Lemma word_solid w : word w -> solid w. Proof. intros [N H]. split; auto. intros c Hc. apply plain_space; auto. Qed.

Lemma write_ok i : item_ok i -> solid (write i) /\ forall c, In c (chars (write i)) -> c <> ";"%char.
Proof.
  destruct i as [v|k v]; cbn [item_ok write].
  - intros H. split; [now apply word_solid|]. intros c Hc. apply H; auto.
  - intros [[N1 H1] [N2 H2]]. split.
    + split; [destruct k; [easy|discriminate]|]. intros c Hc. rewrite !chars_app in Hc. apply in_app_iff in Hc as [Hc|[<-|Hc]]; [apply plain_space; auto|reflexivity|apply plain_space; auto].
    + intros c Hc. rewrite !chars_app in Hc. apply in_app_iff in Hc as [Hc|[<-|Hc]]; [apply H1; auto|discriminate|apply H2; auto].
Qed.
Lemma split_items l : l <> [] -> Forall item_ok l -> words "" (replace_char ";" " " (String.concat ";" (map write l))) = map write l.
Proof.
  induction l as [|i l IH]; [easy|]. intros _ F. inversion F as [|? ? Hi Fl]; subst. destruct (write_ok i Hi) as [S1 S2]. destruct l as [|i2 l].
  - cbn [map String.concat]. rewrite replace_id by auto. now apply words_one.
  - change (String.concat ";" (map write (i :: i2 :: l))) with (write i ++ ";" ++ String.concat ";" (map write (i2 :: l))). rewrite !replace_app. rewrite (replace_id _ _ (write i)) by auto.
    change (replace_char ";" " " ";") with " ". rewrite words_more by auto. rewrite IH by (auto; discriminate). reflexivity.
Qed.
Lemma split_item i : item_ok i -> words "" (replace_char "=" " " (write i)) = match i with Pos v => [v] | Key k v => [k; v] end.
Proof.
  destruct i as [v|k v]; cbn [item_ok write].
  - intros W. rewrite replace_id by (intros c Hc; apply W; auto). apply words_one. now apply word_solid.
  - intros [W1 W2]. rewrite !replace_app, (replace_id _ _ k) by (intros c Hc; apply W1; auto). rewrite (replace_id _ _ v) by (intros c Hc; apply W2; auto). change (replace_char "=" " " "=") with " ".
    rewrite words_more by now apply word_solid. rewrite words_one; auto. now apply word_solid.
Qed.
Lemma brace_app h r : (forall c, In c (chars h) -> c <> "("%char) -> upto_brace (h ++ "(" ++ r) = (h, Some r).
Proof.
  induction h as [|c h IH]; intros H; [reflexivity|]. cbn [append upto_brace]. destruct (Ascii.eqb_spec c "(") as [E|E]; [now elim (H c (or_introl eq_refl))|]. change (h ++ String "(" r) with (h ++ "(" ++ r). rewrite IH; auto. intros c' Hc. apply H. now right.
Qed.
Lemma drop_app s c : drop_last (s ++ String c "") = s.
Proof. induction s as [|d s IH]; [reflexivity|]. cbn [append drop_last]. destruct s; [reflexivity|]. rewrite IH. reflexivity. Qed.

Definition entry (p : nat) (i : item) : string * string := match i with Pos v => ("arg" ++ to_string p, v) | Key k v => (k, v) end.
Fixpoint entries (p : nat) (l : list item) : args := match l with [] => [] | i :: l' => (entries (S p) l' ++ [entry p i])%list end.
Lemma assign_items l : Forall item_ok l -> forall p m, assign p (map write l) m = Some (entries p l ++ m)%list.
Proof.
  induction 1 as [|i l Hi Fl IH]; intros p m; [reflexivity|]. cbn [map assign entries]. rewrite split_item by auto. rewrite <- app_assoc. destruct i as [v|k v]; now rewrite IH.
Qed.
Lemma parse_written h l : (forall c, In c (chars h) -> c <> "("%char) -> l <> [] -> Forall item_ok l -> parse (written h l) = Some (h, entries 1 l).
Proof.
  intros H N F. unfold parse, written. rewrite brace_app by auto. rewrite drop_app, split_items, assign_items by auto. cbn [obind]. now rewrite app_nil_r.
Qed.

Lemma to_string_inj p q : to_string p = to_string q -> p = q.
Proof.
  unfold to_string. intros E. assert (E2 : NilZero.uint_of_string (NilZero.string_of_uint (Nat.to_uint p)) = NilZero.uint_of_string (NilZero.string_of_uint (Nat.to_uint q))) by congruence.
  assert (NN : forall n, Nat.to_uint n <> Decimal.Nil). { intros n Q. pose proof (Unsigned.to_of (Nat.to_uint n)) as T. rewrite Unsigned.of_to in T. rewrite Q in T. discriminate. }
  rewrite !NilZero.usu in E2 by apply NN. injection E2 as E2. now apply Unsigned.to_uint_inj.
Qed.
Lemma arg_inj p q : "arg" ++ to_string p = "arg" ++ to_string q -> p = q.
Proof. cbn [append]. intros E. injection E as E. now apply to_string_inj. Qed.

Lemma find_app m n k : find (m ++ n)%list k = match find m k with Some v => Some v | None => find n k end.
Proof. induction m as [|[k' v] m IH]; [reflexivity|]. cbn [app find]. now destruct (String.eqb k k'). Qed.
Definition gives_from (p : nat) (l : list item) (n : nat) (k v : string) : Prop := nth_error l n = Some (Key k v) \/ nth_error l n = Some (Pos v) /\ k = "arg" ++ to_string (p + n).
Lemma find_entries l : forall p k, match find (entries p l) k with
  | Some v => exists n, gives_from p l n k v /\ forall n' v', gives_from p l n' k v' -> n' <= n
  | None => forall n v, ~ gives_from p l n k v end.
Proof.
  induction l as [|i l IH]; intros p k.
  - cbn. intros [|n] v [E|[E _]]; discriminate.
  - cbn [entries]. rewrite find_app. specialize (IH (S p) k).
    assert (SH : forall n v, gives_from (S p) l n k v <-> gives_from p (i :: l) (S n) k v) by (intros n v; unfold gives_from; cbn [nth_error]; rewrite Nat.add_succ_r; reflexivity).
    destruct (find (entries (S p) l) k) as [v|].
    + destruct IH as (n & G & L). exists (S n). split; [now apply SH|]. intros [|n'] v' G'; [lia|]. apply SH, L in G'. lia.
    + assert (H0 : forall v, gives_from p (i :: l) 0 k v <-> entry p i = (k, v)).
      { intros v. unfold gives_from. cbn [nth_error]. rewrite Nat.add_0_r. destruct i as [w|k' w]; cbn [entry]; split.
        - intros [E|[E ->]]; [discriminate|congruence].
        - intros E. right. injection E as <- <-. auto.
        - intros [E|[E _]]; [congruence|discriminate].
        - intros E. left. congruence. }
      cbn [find]. destruct (entry p i) as [k' w]. destruct (String.eqb_spec k k') as [E|E].
      * subst k'. exists 0. split; [now apply H0|]. intros [|n'] v' G'; [lia|]. now apply SH, IH in G'.
      * intros [|n] v G; [apply H0 in G; congruence|]. now apply SH, IH in G.
Qed.
Lemma find_last l k : last_given l k (find (entries 1 l) k).
Proof. exact (find_entries l 1 k). Qed.
Lemma last_det l k o o' : last_given l k o -> last_given l k o' -> o = o'.
Proof.
  destruct o as [v|], o' as [v'|]; cbn [last_given]; auto.
  - intros (n & G & L) (n' & G' & L'). pose proof (L _ _ G'). pose proof (L' _ _ G). assert (n = n') by lia. subst n'. destruct G as [G|[G _]], G' as [G'|[G' _]]; congruence.
  - intros (n & G & _) N. now elim (N n v).
  - intros N (n & G & _). now elim (N n v').
Qed.

(** *** Positions and keys *)
Lemma arg_position vs k i : (forall n, k <> position n) -> arg (entries 1 (map Pos vs)) k (S i) = nth i vs "".
Proof.
  intros NP. unfold arg, value. change ("arg" ++ to_string (S i)) with (position i).
  assert (G : forall n k' v, gives (map Pos vs) n k' v <-> nth_error vs n = Some v /\ k' = position n).
  { intros n k' v. unfold gives. rewrite nth_error_map. destruct (nth_error vs n) as [w|]; cbn [option_map]; split; [intros [E|[E ->]]; split; congruence|intros [E ->]; right; split; congruence|intros [E|[E _]]; discriminate|intros [E _]; discriminate]. }
  assert (E1 : find (entries 1 (map Pos vs)) k = None).
  { apply (last_det (map Pos vs) k); [apply find_last|]. intros n v Q. apply G in Q as [_ ->]. now elim (NP n). }
  rewrite E1. assert (E2 : find (entries 1 (map Pos vs)) (position i) = nth_error vs i).
  { apply (last_det (map Pos vs) (position i)); [apply find_last|]. destruct (nth_error vs i) as [v|] eqn:E; cbn [last_given].
    - exists i. split; [now apply G|]. intros n' v' Q. apply G in Q as [_ Q]. apply arg_inj in Q. lia.
    - intros n v Q. apply G in Q as [Q1 Q2]. apply arg_inj in Q2. congruence. }
  rewrite E2. destruct (nth_error vs i) as [v|] eqn:E; [now rewrite (nth_error_nth _ _ _ E)|]. apply nth_error_None in E. now rewrite nth_overflow.
Qed.
Definition keyed (keys vs : list string) : list item := map (fun kv => Key (fst kv) (snd kv)) (combine keys vs).
Lemma arg_key keys vs l k i : NoDup keys -> (forall k', In k' keys -> forall n, k' <> position n) -> Permutation l (keyed keys vs) -> nth_error keys i = Some k -> length vs <= length keys ->
  arg (entries 1 l) k (S i) = nth i vs "".
Proof.
  intros ND NP PE Ek LE. unfold arg, value. change ("arg" ++ to_string (S i)) with (position i).
  assert (IT : forall x, In x l <-> exists j k' v, nth_error keys j = Some k' /\ nth_error vs j = Some v /\ x = Key k' v).
  { intros x. split.
    - intros Hx. apply (Permutation_in _ PE) in Hx. unfold keyed in Hx. apply in_map_iff in Hx as ([k' v] & <- & Hx). apply In_nth_error in Hx as (j & Hx). exists j, k', v. cbn [fst snd].
      clear -Hx. revert vs j Hx. induction keys as [|a keys IH]; intros [|b vs] [|j] Hx; cbn in *; try discriminate; [injection Hx as -> ->; auto|now apply IH].
    - intros (j & k' & v & E1 & E2 & ->). apply (Permutation_in _ (Permutation_sym PE)). unfold keyed. apply in_map_iff. exists (k', v). split; auto. apply (nth_error_In _ j).
      clear -E1 E2. revert vs j E1 E2. induction keys as [|a keys IH]; intros [|b vs] [|j] E1 E2; cbn in *; try discriminate; [congruence|now apply IH]. }
  assert (KO : forall n k' v, gives l n k' v -> exists j, nth_error keys j = Some k' /\ nth_error vs j = Some v).
  { intros n k' v [G|[G _]]; apply nth_error_In, IT in G as (j & k2 & v2 & E1 & E2 & E3); [|discriminate]. injection E3 as <- <-. eauto. }
  destruct (nth_error vs i) as [v|] eqn:Ev.
  - assert (E1 : find (entries 1 l) k = Some v).
    { pose proof (find_last l k) as FL. destruct (find (entries 1 l) k) as [w|].
      - destruct FL as (n & G & _). apply KO in G as (j & E1 & E2). assert (j = i); [|congruence]. eapply (proj1 (NoDup_nth_error keys) ND); [apply nth_error_Some; congruence|congruence].
      - exfalso. assert (I : In (Key k v) l) by (apply IT; eauto 6). apply In_nth_error in I as (n & I). apply (FL n v). now left. }
    rewrite E1. symmetry. now apply nth_error_nth.
  - assert (E1 : find (entries 1 l) k = None).
    { pose proof (find_last l k) as FL. destruct (find (entries 1 l) k) as [w|]; auto. destruct FL as (n & G & _). apply KO in G as (j & E1 & E2). assert (j = i); [|congruence]. eapply (proj1 (NoDup_nth_error keys) ND); [apply nth_error_Some; congruence|congruence]. }
    assert (E2 : find (entries 1 l) (position i) = None).
    { pose proof (find_last l (position i)) as FL. destruct (find (entries 1 l) (position i)) as [w|]; auto. destruct FL as (n & G & _). apply KO in G as (j & E2 & _). apply nth_error_In in E2. now elim (NP _ E2 i). }
    rewrite E1, E2. apply nth_error_None in Ev. now rewrite nth_overflow.
Qed.
Lemma keyed_ok keys vs l : Forall word keys -> Forall word vs -> Permutation l (keyed keys vs) -> Forall item_ok l.
Proof.
  intros FK FV PE. apply Forall_forall. intros x Hx. apply (Permutation_in _ PE) in Hx. apply in_map_iff in Hx as ([k v] & <- & Hx). cbn. rewrite Forall_forall in *. split; [apply FK; now apply in_combine_l in Hx|apply FV; now apply in_combine_r in Hx].
Qed.

(** *** The table of heuristics *)
Definition same (x y : string * args) : Prop := fst x = fst y /\ forall k, find (snd x) k = find (snd y) k.
Lemma find_in m k v : find m k = Some v -> In k (map fst m).
Proof. induction m as [|[k' w] m IH]; [easy|]. cbn. destruct (String.eqb_spec k k'); auto. Qed.
Lemma spec_eqb_same x y : spec_eqb x y = true <-> same x y.
Proof.
  unfold spec_eqb, same, map_eqb. rewrite !andb_true_iff, !forallb_forall. destruct (String.eqb_spec (fst x) (fst y)) as [E|E]; [|split; [intros [Q _]; discriminate|tauto]]. split.
  - intros (_ & H1 & H2). split; auto. intros k. destruct (find (snd x) k) as [v|] eqn:E1.
    + pose proof (H1 k (find_in _ _ _ E1)) as H. cbn beta in H. rewrite E1 in H. destruct (find (snd y) k) as [w|]; [|discriminate]. apply String.eqb_eq in H. congruence.
    + destruct (find (snd y) k) as [w|] eqn:E2; auto. pose proof (H2 k (find_in _ _ _ E2)) as H. cbn beta in H. rewrite E1, E2 in H. discriminate.
  - intros (_ & H). split; auto. split; intros k _; rewrite H; destruct (find (snd y) k); auto; apply String.eqb_refl.
Qed.
Lemma same_sym x y : same x y -> same y x. Proof. intros [H1 H2]. split; auto. Qed.
Lemma same_trans x y z : same x y -> same y z -> same x z. Proof. intros [H1 H2] [H3 H4]. split; [congruence|]. intros k. rewrite H2. auto. Qed.
Lemma seen_some l x j : seen l x = Some j -> exists y, In (y, j) l /\ same x y.
Proof. induction l as [|[y i] l IH]; [easy|]. cbn [seen]. destruct (spec_eqb x y) eqn:E; [intros Q; injection Q as <-; exists y; split; [now left|now apply spec_eqb_same]|]. intros Q. apply IH in Q as (z & Hz & S). exists z. split; auto. now right. Qed.
Lemma seen_none l x : seen l x = None -> forall y j, In (y, j) l -> ~ same x y.
Proof. induction l as [|[y i] l IH]; [easy|]. cbn [seen]. destruct (spec_eqb x y) eqn:E; [discriminate|]. intros Q z j [H|H]; [injection H as -> ->; rewrite <- spec_eqb_same; congruence|eauto]. Qed.

Record binv (xs : list (string * args)) (sf : list ((string * args) * nat)) (hs : list nat) : Prop := {
  b_len : length hs = length xs;
  b_own : forall y j, In (y, j) sf -> nth_error xs j = Some y /\ nth_error hs j = Some j;
  b_all : forall i x, nth_error xs i = Some x -> exists j y, j <= i /\ nth_error hs i = Some j /\ In (y, j) sf /\ same x y;
  b_one : forall y j y' j', In (y, j) sf -> In (y', j') sf -> same y y' -> j = j' }.
Lemma build_inv specs : forall xs sf hs hs', binv xs sf hs -> build specs sf hs = Some hs' -> exists ys sf', omap parse specs = Some ys /\ binv (xs ++ ys)%list sf' hs'.
Proof.
  induction specs as [|s specs IH]; intros xs sf hs hs' I E; cbn [build] in E.
  - injection E as <-. exists [], sf. rewrite app_nil_r. auto.
  - apply obind_some in E as (x & Ex & E). destruct I as [LE OW AL ON]. destruct (seen sf x) as [j|] eqn:SE.
    + apply obind_some in E as (o & Eo & E). apply seen_some in SE as (y & Hy & Sy). destruct (OW _ _ Hy) as [O1 O2]. assert (o = j) by (unfold get in Eo; congruence). subst o.
      apply (IH (xs ++ [x])%list) in E as (ys & sf' & E1 & I').
      * exists (x :: ys), sf'. cbn [omap]. rewrite Ex. cbn [obind]. rewrite E1. cbn [obind]. split; auto. now rewrite <- app_assoc in I'.
      * split; [rewrite !app_length; cbn; lia| | |exact ON].
        -- intros z k Hz. destruct (OW _ _ Hz) as [Q1 Q2]. rewrite !nth_error_app1 by (apply nth_error_Some; congruence). auto.
        -- intros i z Ez. destruct (Nat.lt_ge_cases i (length xs)) as [Li|Li].
           ++ rewrite nth_error_app1 in Ez by auto. rewrite nth_error_app1 by lia. auto.
           ++ rewrite nth_error_app2 in Ez by auto. destruct (i - length xs) as [|d] eqn:Ed; [|now destruct d]. cbn in Ez. injection Ez as <-. exists j, y. rewrite nth_error_app2 by lia. replace (i - length hs) with 0 by lia.
              assert (j < length xs) by (apply nth_error_Some; congruence). cbn. split; [lia|]. auto.
    + destruct (known (fst x)); [|discriminate]. apply (IH (xs ++ [x])%list) in E as (ys & sf' & E1 & I').
      * exists (x :: ys), sf'. cbn [omap]. rewrite Ex. cbn [obind]. rewrite E1. cbn [obind]. split; auto. now rewrite <- app_assoc in I'.
      * pose proof (seen_none _ _ SE) as SN. split; [rewrite !app_length; cbn; lia| | |].
        -- intros z k [Hz|Hz].
           ++ injection Hz as <- <-. rewrite LE at 1. rewrite !nth_error_app2 by lia. rewrite !Nat.sub_diag. auto.
           ++ destruct (OW _ _ Hz) as [Q1 Q2]. rewrite !nth_error_app1 by (apply nth_error_Some; congruence). auto.
        -- intros i z Ez. destruct (Nat.lt_ge_cases i (length xs)) as [Li|Li].
           ++ rewrite nth_error_app1 in Ez by auto. rewrite nth_error_app1 by lia. destruct (AL _ _ Ez) as (j & y & Q1 & Q2 & Q3 & Q4). exists j, y. split; auto. split; auto. split; auto. now right.
           ++ rewrite nth_error_app2 in Ez by auto. destruct (i - length xs) as [|d] eqn:Ed; [|now destruct d]. cbn in Ez. injection Ez as <-. exists (length hs), x. rewrite nth_error_app2 by lia. replace (i - length hs) with 0 by lia. cbn.
              split; [lia|]. split; auto. split; [now left|]. split; auto.
        -- intros y j y' j' [H|H] [H'|H'] S; try (injection H as <- <-); try (injection H' as <- <-); auto; [now elim (SN _ _ H')|apply same_sym in S; now elim (SN _ _ H)|eauto].
Qed.
