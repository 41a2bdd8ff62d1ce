(** Theorems about the arguments of the heuristics (C201-C205). Proofs are in Arg_proof. *)
From Coq Require Import Ascii String Permutation.
From Verif Require Import Base.
From Verif Require Import Arg_spec Arg_model Arg_proof.
Local Open Scope string_scope.

(** C201: what is written is read: the name, and for each key and each position the value that is given last. *)
Theorem arg_roundtrip : forall h l, (forall c, In c (chars h) -> c <> "("%char) -> l <> [] -> Forall item_ok l ->
  exists m, parse (written h l) = Some (h, m) /\ forall k, last_given l k (find m k).
Proof. intros h l H N F. exists (entries 1 l). split; [now apply parse_written|]. intros k. apply find_last. Qed.

(** Without a brace there are no arguments. *)
Theorem arg_bare : forall h, (forall c, In c (chars h) -> c <> "("%char) -> parse h = Some (h, []).
Proof.
  intros h H. unfold parse. assert (E : upto_brace h = (h, None)); [|now rewrite E].
  induction h as [|c h IH]; [reflexivity|]. cbn [upto_brace]. destruct (Ascii.eqb_spec c "(") as [E|E]; [now elim (H c (or_introl eq_refl))|]. rewrite IH; auto. intros c' Hc. apply H. now right.
Qed.

(** The keys in the order of the help text *)
Definition rc2_keys : list string := ["h"; "est"; "taskcount"].
Definition dof_keys : list string := ["type"; "mode"; "tdg"; "pg"; "andOrLM"; "externalLM"; "lmclmc"; "netchange"].
Definition invert_keys : list string := ["invert"].

Definition plainb (c : ascii) : bool := negb (is_space c) && negb (Ascii.eqb c ";") && negb (Ascii.eqb c "=").
Lemma plainb_ok c : plainb c = true -> plain c.
Proof.
  unfold plainb, plain, is_space. rewrite !andb_true_iff, !negb_true_iff, orb_false_iff, andb_false_iff, Nat.eqb_neq, !Nat.leb_gt, !Ascii.eqb_neq. intros [[[H1 H2] H3] H4]. split; [lia|auto].
Qed.
Lemma wordb_ok s : (match s with "" => false | _ => forallb plainb (chars s) end) = true -> word s.
Proof. destruct s as [|c s]; [discriminate|]. rewrite forallb_forall. intros H. split; [discriminate|]. intros c' Hc. apply plainb_ok; auto. Qed.

Definition keys_ok (keys : list string) : Prop := NoDup keys /\ Forall word keys /\ forall k, In k keys -> forall n, k <> position n.
Lemma rc2_keys_ok : keys_ok rc2_keys.
Proof. split; [|split]; [repeat (constructor; [cbn; intuition discriminate|]); constructor|repeat (constructor; [now apply wordb_ok|]); constructor|]. intros k Hk n. repeat (destruct Hk as [<-|Hk]; [discriminate|]). easy. Qed.
Lemma dof_keys_ok : keys_ok dof_keys.
Proof. split; [|split]; [repeat (constructor; [cbn; intuition discriminate|]); constructor|repeat (constructor; [now apply wordb_ok|]); constructor|]. intros k Hk n. repeat (destruct Hk as [<-|Hk]; [discriminate|]). easy. Qed.
Lemma invert_keys_ok : keys_ok invert_keys.
Proof. split; [|split]; [repeat (constructor; [cbn; intuition discriminate|]); constructor|repeat (constructor; [now apply wordb_ok|]); constructor|]. intros k Hk n. repeat (destruct Hk as [<-|Hk]; [discriminate|]). easy. Qed.

Lemma by_position h keys vs m : keys_ok keys -> (forall c, In c (chars h) -> c <> "("%char) -> vs <> [] -> Forall word vs -> parse (written h (map Pos vs)) = Some (h, m) ->
  forall i k, nth_error keys i = Some k -> arg m k (S i) = nth i vs "".
Proof.
  intros (ND & FK & NP) H N F E i k Ek. rewrite parse_written in E; auto; [|destruct vs; [easy|discriminate]|now apply Forall_map]. injection E as <-. apply arg_position. apply NP. now apply nth_error_In in Ek.
Qed.
Lemma by_key h keys vs l m : keys_ok keys -> (forall c, In c (chars h) -> c <> "("%char) -> vs <> [] -> length vs <= length keys -> Forall word vs -> Permutation l (keyed keys vs) -> parse (written h l) = Some (h, m) ->
  forall i k, nth_error keys i = Some k -> arg m k (S i) = nth i vs "".
Proof.
  intros (ND & FK & NP) H N LE F PE E i k Ek. rewrite parse_written in E; auto; [|intros ->; apply Permutation_nil in PE; destruct vs; [easy|]; destruct keys; [cbn in LE; lia|discriminate]|now apply (keyed_ok keys vs)].
  injection E as <-. now apply (arg_key keys vs).
Qed.
Lemma given_exists h l : (forall c, In c (chars h) -> c <> "("%char) -> l <> [] -> Forall item_ok l -> exists m, parse (written h l) = Some (h, m).
Proof. intros H N F. eexists. now apply parse_written. Qed.

(** C202: arguments in the order of the help text have the same effect as the same arguments with their keys in any order, and the effect described there. *)
Theorem arg_rc2 : forall vs l, vs <> [] -> length vs <= 3 -> Forall word vs -> Permutation l (keyed rc2_keys vs) ->
  exists m n, parse (written "rc2" (map Pos vs)) = Some ("rc2", m) /\ parse (written "rc2" l) = Some ("rc2", n) /\ rc2_options m = rc2_options n /\
    let o := rc2_options m in
    (c_inner o = LmCut <-> nth 0 vs "" = "lmc") /\ (c_inner o = Add <-> nth 0 vs "" = "add") /\ (c_inner o = Filter <-> nth 0 vs "" = "filter") /\ (nth 0 vs "" = "ff" -> c_inner o = FF) /\
    (c_est o = Costs <-> nth 1 vs "" = "cost") /\ (c_est o = Mixed <-> nth 1 vs "" = "mixed") /\ (nth 1 vs "" = "distance" -> c_est o = Distance) /\ (c_count o = false <-> nth 2 vs "" = "no").
Proof.
  intros vs l N LE F PE. assert (H : forall c, In c (chars "rc2") -> c <> "("%char) by (cbn; intros c [<-|[<-|[<-|[]]]]; discriminate).
  destruct (given_exists "rc2" (map Pos vs)) as (m & Em); auto; [destruct vs; [easy|discriminate]|now apply Forall_map|].
  destruct (given_exists "rc2" l) as (n & En); auto; [intros ->; apply Permutation_nil in PE; destruct vs; [easy|discriminate]|apply (keyed_ok rc2_keys vs); auto; apply rc2_keys_ok|].
  exists m, n. split; auto. split; auto.
  pose proof (by_position _ _ _ _ rc2_keys_ok H N F Em) as A. pose proof (by_key _ _ _ _ _ rc2_keys_ok H N LE F PE En) as B.
  unfold rc2_options. rewrite (A 0 _ eq_refl), (A 1 _ eq_refl), (A 2 _ eq_refl), (B 0 _ eq_refl), (B 1 _ eq_refl), (B 2 _ eq_refl). split; auto. cbn [c_inner c_est c_count].
  generalize (nth 0 vs "") (nth 1 vs "") (nth 2 vs ""). intros a b c.
  repeat split; repeat match goal with |- context [String.eqb ?x ?y] => destruct (String.eqb_spec x y) end; subst; intros; cbn in *; try discriminate; congruence.
Qed.
Theorem arg_dof : forall vs l, vs <> [] -> length vs <= 8 -> Forall word vs -> Permutation l (keyed dof_keys vs) ->
  exists m n, parse (written "dof" (map Pos vs)) = Some ("dof", m) /\ parse (written "dof" l) = Some ("dof", n) /\ dof_options_of m = dof_options_of n /\
    let o := dof_options_of m in
    (d_lp o = true <-> nth 0 vs "" = "lp") /\ (d_optimal o = true <-> nth 1 vs "" = "optimal") /\ (d_tdg o = TdgFull <-> nth 2 vs "" = "uc") /\ (d_tdg o = TdgNone <-> nth 2 vs "" = "none") /\
    (d_pg o = PgFull <-> nth 3 vs "" = "full") /\ (d_pg o = PgRelaxed <-> nth 2 vs "" = "relaxed" /\ nth 3 vs "" <> "full") /\ (d_lms o = LmsFull <-> nth 4 vs "" = "full") /\ (d_lms o = LmsTnI <-> nth 4 vs "" = "onlyTNi") /\
    (d_ext o = true <-> nth 5 vs "" = "none") /\ (d_lmc o = false <-> nth 6 vs "" = "none") /\ (d_net o = false <-> nth 7 vs "" = "none").
Proof.
  intros vs l N LE F PE. assert (H : forall c, In c (chars "dof") -> c <> "("%char) by (cbn; intros c [<-|[<-|[<-|[]]]]; discriminate).
  destruct (given_exists "dof" (map Pos vs)) as (m & Em); auto; [destruct vs; [easy|discriminate]|now apply Forall_map|].
  destruct (given_exists "dof" l) as (n & En); auto; [intros ->; apply Permutation_nil in PE; destruct vs; [easy|discriminate]|apply (keyed_ok dof_keys vs); auto; apply dof_keys_ok|].
  exists m, n. split; auto. split; auto.
  pose proof (by_position _ _ _ _ dof_keys_ok H N F Em) as A. pose proof (by_key _ _ _ _ _ dof_keys_ok H N LE F PE En) as B.
  unfold dof_options_of. rewrite (A 0 _ eq_refl), (A 1 _ eq_refl), (A 2 _ eq_refl), (A 3 _ eq_refl), (A 4 _ eq_refl), (A 5 _ eq_refl), (A 6 _ eq_refl), (A 7 _ eq_refl).
  rewrite (B 0 _ eq_refl), (B 1 _ eq_refl), (B 2 _ eq_refl), (B 3 _ eq_refl), (B 4 _ eq_refl), (B 5 _ eq_refl), (B 6 _ eq_refl), (B 7 _ eq_refl). split; auto. cbn [d_lp d_optimal d_tdg d_pg d_lms d_ext d_lmc d_net].
  generalize (nth 0 vs "") (nth 1 vs "") (nth 2 vs "") (nth 3 vs "") (nth 4 vs "") (nth 5 vs "") (nth 6 vs "") (nth 7 vs ""). clear. intros a b c d e f g h.
  split; [apply String.eqb_eq|]. split; [apply String.eqb_eq|].
  split; [destruct (String.eqb_spec c "uc"), (String.eqb_spec c "none"); subst; split; intros; try discriminate; congruence|].
  split; [destruct (String.eqb_spec c "uc"), (String.eqb_spec c "none"); subst; split; intros; try discriminate; congruence|].
  split; [destruct (String.eqb_spec d "full"), (String.eqb_spec c "relaxed"); subst; split; intros; try discriminate; congruence|].
  split; [destruct (String.eqb_spec d "full"), (String.eqb_spec c "relaxed"); subst; split; intros; try discriminate; try tauto; split; congruence|].
  split; [destruct (String.eqb_spec e "full"), (String.eqb_spec e "onlyTNi"); subst; split; intros; try discriminate; congruence|].
  split; [destruct (String.eqb_spec e "full"), (String.eqb_spec e "onlyTNi"); subst; split; intros; try discriminate; congruence|].
  split; [apply String.eqb_eq|]. rewrite !negb_false_iff, !String.eqb_eq. tauto.
Qed.
Theorem arg_invert : forall h v, (forall c, In c (chars h) -> c <> "("%char) -> word v ->
  exists m n, parse (written h [Pos v]) = Some (h, m) /\ parse (written h [Key "invert" v]) = Some (h, n) /\ inverted m = inverted n /\ (inverted m = true <-> v = "true" \/ v = "invert").
Proof.
  intros h v H W. assert (F : Forall word [v]) by auto. destruct (given_exists h (map Pos [v])) as (m & Em); auto; [discriminate|now apply Forall_map|].
  assert (PE : Permutation [Key "invert" v] (keyed invert_keys [v])) by reflexivity. destruct (given_exists h [Key "invert" v]) as (n & En); auto; [discriminate|apply (keyed_ok invert_keys [v]); auto; apply invert_keys_ok|].
  assert (NE : [v] <> []) by discriminate. assert (LE : length [v] <= length invert_keys) by (cbn; lia). exists m, n. split; auto. split; auto. unfold inverted. rewrite (by_position _ _ _ _ invert_keys_ok H NE F Em 0 _ eq_refl), (by_key _ _ _ _ _ invert_keys_ok H NE LE F PE En 0 _ eq_refl). cbn [nth].
  split; auto. now rewrite orb_true_iff, !String.eqb_eq.
Qed.

(** C203, refuted: the value relaxed of the argument pg does not select the relaxed planning graph. *)
Theorem arg_pg_relaxed_refuted : ~ (forall l m, Forall item_ok l -> parse (written "dof" l) = Some ("dof", m) -> last_given l "pg" (Some "relaxed") -> d_pg (dof_options_of m) = PgRelaxed).
Proof.
  intros H. specialize (H [Key "pg" "relaxed"] [("pg", "relaxed")]). cut (PgNone = PgRelaxed); [discriminate|]. change PgNone with (d_pg (dof_options_of [("pg", "relaxed")])). apply H.
  - constructor; [|constructor]. split; now apply wordb_ok.
  - reflexivity.
  - exists 0. split; [now left|]. intros [|[|n']] v' [E|[E _]]; try discriminate; lia.
Qed.

(** C204: two entries of the table are the same object exactly if they have the same name and the same arguments; each object is created for its first entry. *)
Theorem arg_objects : forall specs hs, build specs [] [] = Some hs ->
  length hs = length specs /\ exists xs, omap parse specs = Some xs /\
  (forall i o, nth_error hs i = Some o -> o <= i /\ nth_error hs o = Some o) /\
  (forall i j x y, nth_error xs i = Some x -> nth_error xs j = Some y -> nth_error hs i = nth_error hs j <-> fst x = fst y /\ forall k, find (snd x) k = find (snd y) k).
Proof.
  intros specs hs E. destruct (build_inv specs [] [] [] hs) as (xs & sf & Ex & I); auto; [split; [reflexivity|easy|intros [|i] x Q; discriminate|easy]|]. cbn [app] in I. destruct I as [LE OW AL ON].
  assert (LX : length xs = length specs). { clear -Ex. revert xs Ex. induction specs as [|s specs IH]; intros xs Ex; cbn [omap] in Ex; [now injection Ex as <-|]. apply obind_some in Ex as (a & _ & Ex). apply obind_some in Ex as (b & Eb & Ex). injection Ex as <-. cbn. f_equal. auto. }
  split; [lia|]. exists xs. split; auto. split.
  - intros i o Ho. destruct (nth_error xs i) as [x|] eqn:Exi; [|apply nth_error_None in Exi; assert (i < length hs) by (apply nth_error_Some; congruence); lia].
    destruct (AL _ _ Exi) as (j & y & L & Hj & Hy & _). assert (o = j) by congruence. subst o. split; auto. now apply OW in Hy.
  - intros i j x y Hx Hy. change (fst x = fst y /\ (forall k, find (snd x) k = find (snd y) k)) with (same x y). destruct (AL _ _ Hx) as (a & x' & _ & Ha & Ix & Sx). destruct (AL _ _ Hy) as (b & y' & _ & Hb & Iy & Sy). rewrite Ha, Hb. split.
    + intros Q. injection Q as <-. assert (x' = y') by (apply OW in Ix; apply OW in Iy; destruct Ix, Iy; congruence). subst y'. eapply same_trans; eauto. now apply same_sym.
    + intros S. f_equal. eapply ON; eauto. eapply same_trans; [apply same_sym, Sx|]. eapply same_trans; eauto.
Qed.

(** C205, refuted: an argument with more than one equals sign is not always rejected. *)
Theorem arg_equals_refuted : ~ (forall h a b c, (forall d, In d (chars h) -> d <> "("%char) -> (forall d, In d (chars (a ++ b ++ c)) -> plain d) -> parse (h ++ "(" ++ (a ++ "=" ++ b ++ "=" ++ c) ++ ")") = None).
Proof.
  intros H. specialize (H "rc2" "h" "" "lmc"). cut (Some ("rc2", [("h", "lmc")]) = None); [discriminate|]. apply H.
  - cbn. intros d [<-|[<-|[<-|[]]]]; discriminate.
  - assert (W : word "hlmc") by now apply wordb_ok. apply W.
Qed.

Module Ex.
  (** The theorems apply to these arguments. *)
  Definition vs : list string := ["lmc"; "mixed"; "no"].
  Definition l : list item := [Key "taskcount" "no"; Key "h" "lmc"; Key "est" "mixed"].
  Lemma vs_ok : Forall word vs. Proof. repeat (constructor; [now apply wordb_ok|]). constructor. Qed.
  Example by_order : exists m n, parse "rc2(lmc;mixed;no)" = Some ("rc2", m) /\ parse "rc2(taskcount=no;h=lmc;est=mixed)" = Some ("rc2", n) /\ rc2_options m = rc2_options n /\ c_inner (rc2_options n) = LmCut.
  Proof.
    destruct (arg_rc2 vs l) as (m & n & E1 & E2 & E3 & E4 & _); [discriminate|cbn; lia|apply vs_ok| |].
    - change (keyed rc2_keys vs) with [Key "h" "lmc"; Key "est" "mixed"; Key "taskcount" "no"]. apply (Permutation_cons_append [Key "h" "lmc"; Key "est" "mixed"] (Key "taskcount" "no")).
    - exists m, n. split; [exact E1|]. split; [exact E2|]. split; auto. rewrite <- E3. now apply E4.
  Qed.
  Example twice : exists m, parse "rc2(lmc;h=add;est=cost;h=ff)" = Some ("rc2", m) /\ find m "h" = Some "ff" /\ find m "arg1" = Some "lmc" /\ find m "arg2" = None.
  Proof. eexists. split; [reflexivity|]. repeat split. Qed.
  Example dof : exists m, parse "dof(lp;optimal;uc;full;onlyTNi)" = Some ("dof", m) /\ d_tdg (dof_options_of m) = TdgFull /\ d_lms (dof_options_of m) = LmsTnI.
  Proof. eexists. split; [reflexivity|]. split; reflexivity. Qed.
  Example inv : exists m, parse "cost(invert)" = Some ("cost", m) /\ inverted m = true.
  Proof. eexists. split; reflexivity. Qed.
  Example table : build ["rc2(h=lmc;est=cost)"; "zero"; "rc2(est=cost;h=lmc)"; "rc2(lmc;cost)"; "zero"] [] [] = Some [0; 1; 0; 3; 1].
  Proof. reflexivity. Qed.
  (** Other inputs: the character before the end is dropped, empty arguments are empty strings, several equals signs are rejected, unknown names are rejected. *)
  Example unclosed : parse "rc2(lmc" = Some ("rc2", [("arg1", "lm")]). Proof. reflexivity. Qed.
  Example empty : parse "rc2()" = Some ("rc2", [("arg1", "")]). Proof. reflexivity. Qed.
  Example equals : parse "rc2(h=lmc=ff)" = None. Proof. reflexivity. Qed.
  Example unknown : build ["hmax"] [] [] = None. Proof. reflexivity. Qed.
End Ex.

Print Assumptions arg_roundtrip.
Print Assumptions arg_bare.
Print Assumptions arg_rc2.
Print Assumptions arg_dof.
Print Assumptions arg_invert.
Print Assumptions arg_pg_relaxed_refuted.
Print Assumptions arg_objects.
Print Assumptions arg_equals_refuted.
