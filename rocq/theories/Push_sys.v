(** The operators on positions, constraints and marks, and their meaning for task networks. *)
From Coq Require Import Relations.
From Verif Require Import Base Htn_problem Htn_spec Htn_sem Htn_iso Push_model Push_net.

(** ** Updates *)
Definition upd1 (c : conf) (e : slot * nat) : conf := fun s => if slot_dec s (fst e) then snd e else c s.
Definition upd (es : list (slot * nat)) (c : conf) : conf := fold_left upd1 es c.

Lemma upd_snoc es e c : upd (es ++ [e]) c = upd1 (upd es c) e.
Proof. unfold upd. now rewrite fold_left_app. Qed.
Lemma upd_case es c s : (exists d, In (s, d) es /\ upd es c s = d) \/ ((forall d, ~ In (s, d) es) /\ upd es c s = c s).
Proof.
  induction es as [|[x d] es IH] using rev_ind; [right; split; auto|]. rewrite upd_snoc. unfold upd1. cbn [fst snd]. destruct (slot_dec s x) as [->|N].
  - left. exists d. rewrite in_app_iff. cbn. auto.
  - destruct IH as [(d' & I & E)|[I E]]; [left; exists d'; rewrite in_app_iff; auto|right]. split; auto. intros d' J. apply in_app_or in J as [J|[[= <- _]|[]]]; [now apply (I d')|congruence].
Qed.

Record sop := { s_prec : list (slot * nat); s_add : list (slot * nat); s_cond : list ((slot * nat) * (slot * nat)) }.
Definition spre (o : sop) (c : conf) : Prop := forall p, In p (s_prec o) -> c (fst p) = snd p.
Definition fired (o : sop) (c : conf) : list (slot * nat) := map snd (filter (fun e => c (fst (fst e)) =? snd (fst e)) (s_cond o)).
Definition seff (o : sop) (c : conf) : conf := upd (s_add o ++ fired o c) c.

Lemma fired_in o c e : In e (fired o c) <-> exists s d, In ((s, d), e) (s_cond o) /\ c s = d.
Proof.
  unfold fired. rewrite in_map_iff. split.
  - intros ([[s d] e'] & <- & I). apply filter_In in I as [I E]. cbn in E. apply Nat.eqb_eq in E. exists s, d. auto.
  - intros (s & d & I & E). exists ((s, d), e). split; auto. apply filter_In. split; auto. cbn. now apply Nat.eqb_eq.
Qed.

Section Sys.
  Variable pgb : nat.

  Definition ready_s (j b : nat) : list (slot * nat) := map (fun k => if k <? j then (SK k, 1) else if j <? k then (SC k j, 0) else (ST j, b)) (seq 0 pgb).
  Definition leave_s (j : nat) : list (slot * nat) := map (fun k => (SC j k, 0)) (seq 0 j) ++ [(ST j, 0); (SK j, 0)].
  Definition act_s (i j : nat) : sop := {| s_prec := ready_s j (i + 1); s_add := leave_s j; s_cond := [] |}.
  Definition meth_s (m : method) (s : list nat) (o : list (nat * nat)) (j : nat) : sop :=
    let n := length s in
    {| s_prec := ready_s j (m_task m + 1) ++ map (fun l => (ST (pgb - 1 - l), 0)) (seq 0 (n - 1));
       s_add := match s with
                | [] => leave_s j
                | t :: r => (ST j, 1 + t) :: map (fun lt => (ST (pgb - n + 1 + fst lt), 1 + snd lt)) (combine (seq 0 (n - 1)) r) ++
                            map (fun l => (SK (pgb - 1 - l), 1)) (seq 0 (n - 1))
                end;
       s_cond := if n <=? 1 then [] else
                 concat (map (fun l => map (fun k => ((SC j k, 1), (SC (pgb - l - 1) k, 1))) (seq 0 j)) (seq 0 (n - 1))) ++
                 map (fun e => let x := SC (place pgb n j (fst e)) (place pgb n j (snd e)) in ((x, 0), (x, 1))) o |}.
  Definition move_s (i j : nat) : sop :=
    {| s_prec := [(ST j, 1 + i); (SK j, 1); (ST (j - 1), 0); (SK (j - 1), 0)] ++ map (fun l => if l <? j then (SM l, 0) else (SM (l + 1), 0)) (seq 0 (pgb - 2));
       s_add := [(ST j, 0); (SK j, 0); (ST (j - 1), 1 + i); (SK (j - 1), 1); (SM j, 0)] ++
                map (fun l => if l <? j - 1 then (SC j l, 0) else (SC (l + 2) j, 0)) (seq 0 (pgb - 2));
       s_cond := map (fun l => if l <? j - 1 then ((SC j l, 1), (SC (j - 1) l, 1)) else ((SC (l + 2) j, 1), (SC (l + 2) (j - 1), 1))) (seq 0 (pgb - 2)) ++
                 (if 1 <? j then [((SK (j - 2), 0), (SM (j - 1), 1)); ((SK (j - 2), 1), (SM (j - 1), 0))] else []) |}.

  Lemma ready_in j b e : j < pgb -> (In e (ready_s j b) <-> (exists k, k < j /\ e = (SK k, 1)) \/ (exists k, j < k < pgb /\ e = (SC k j, 0)) \/ e = (ST j, b)).
  Proof.
    intros L. unfold ready_s. rewrite in_map_iff. split.
    - intros (k & <- & I). apply in_seq in I. destruct (Nat.ltb_spec k j); [left; eauto|]. destruct (Nat.ltb_spec j k); [right; left; exists k; split; auto; lia|auto].
    - intros [(k & Lk & ->)|[(k & Lk & ->)| ->]].
      + exists k. rewrite in_seq. split; [|lia]. destruct (Nat.ltb_spec k j); [auto|lia].
      + exists k. rewrite in_seq. split; [|lia]. destruct (Nat.ltb_spec k j); [lia|]. destruct (Nat.ltb_spec j k); [auto|lia].
      + exists j. rewrite in_seq. split; [|lia]. now rewrite Nat.ltb_irrefl.
  Qed.
  Definition ready (c : conf) (j b : nat) : Prop := c (ST j) = b /\ (forall k, j < k < pgb -> c (SC k j) = 0) /\ (forall k, k < j -> c (SK k) = 1).
  Lemma ready_iff c j b : j < pgb -> ((forall p, In p (ready_s j b) -> c (fst p) = snd p) <-> ready c j b).
  Proof.
    intros L. split.
    - intros H. split; [apply (H (ST j, b)), ready_in; auto|]. split; intros k Lk; [apply (H (SC k j, 0)), ready_in; auto; right; left; eauto|apply (H (SK k, 1)), ready_in; auto; left; eauto].
    - intros (A & B & D) p I. apply (ready_in j b p L) in I as [(k & Lk & ->)|[(k & Lk & ->)| ->]]; cbn [fst snd]; auto.
  Qed.
  Lemma ready_edge c j b k : ready c j b -> ~ edge pgb c k j.
  Proof. intros (_ & H & _) [L E]. rewrite H in E by lia. discriminate. Qed.

  Definition bin (c : conf) : Prop := forall k q, q < k < pgb -> c (SC k q) <= 1.
  Definition ok (c : conf) : Prop := clean pgb c /\ bin c.

  (** ** Actions *)
  Lemma leave_val c j : j < pgb -> let c' := upd (leave_s j) c in
    (forall p, p < pgb -> c' (ST p) = if p =? j then 0 else c (ST p)) /\ (forall k q, q < k < pgb -> c' (SC k q) = if k =? j then 0 else c (SC k q)) /\
    (forall p, c' (SK p) = if p =? j then 0 else c (SK p)) /\ (forall p, c' (SM p) = c (SM p)).
  Proof.
    intros L. cbv zeta. assert (LI : forall e, In e (leave_s j) <-> (exists k, k < j /\ e = (SC j k, 0)) \/ e = (ST j, 0) \/ e = (SK j, 0)).
    { intros e. unfold leave_s. rewrite in_app_iff, in_map_iff. cbn [In]. split.
      - intros [(k & <- & I)|[<-|[<-|[]]]]; auto. apply in_seq in I. left. exists k. split; [lia|auto].
      - intros [(k & Lk & ->)|[->| ->]]; auto. left. exists k. rewrite in_seq. split; [auto|lia]. }
    split; [|split; [|split]].
    - intros p _. destruct (upd_case (leave_s j) c (ST p)) as [(d & I & ->)|[I ->]].
      + apply LI in I as [(k & _ & [=])|[[= -> ->]|[=]]]. now rewrite Nat.eqb_refl.
      + destruct (Nat.eqb_spec p j) as [->|]; auto. exfalso. apply (I 0), LI. auto.
    - intros k q Lq. destruct (upd_case (leave_s j) c (SC k q)) as [(d & I & ->)|[I ->]].
      + apply LI in I as [(k' & _ & [= -> -> ->])|[[=]|[=]]]. now rewrite Nat.eqb_refl.
      + destruct (Nat.eqb_spec k j) as [->|]; auto. exfalso. apply (I 0), LI. left. exists q. split; auto. lia.
    - intros p. destruct (upd_case (leave_s j) c (SK p)) as [(d & I & ->)|[I ->]].
      + apply LI in I as [(k & _ & [=])|[[=]|[= -> ->]]]. now rewrite Nat.eqb_refl.
      + destruct (Nat.eqb_spec p j) as [->|]; auto. exfalso. apply (I 0), LI. auto.
    - intros p. destruct (upd_case (leave_s j) c (SM p)) as [(d & I & ->)|[I ->]]; auto. apply LI in I as [(k & _ & [=])|[[=]|[=]]].
  Qed.
  Lemma act_eff i j c : seff (act_s i j) c = upd (leave_s j) c.
  Proof. unfold seff, act_s, fired. cbn. now rewrite app_nil_r. Qed.
  Lemma act_ok i j c : j < pgb -> ok c -> spre (act_s i j) c -> ok (seff (act_s i j) c) /\ teq (minus (net pgb c) [j]) (net pgb (seff (act_s i j) c)) /\ minimal (net pgb c) [j] /\ c (ST j) = S i.
  Proof.
    intros L [C B] PR. apply (ready_iff c j (i + 1) L) in PR. rewrite act_eff. destruct (leave_val c j L) as (H1 & H2 & _). set (c' := upd (leave_s j) c) in *.
    assert (NE : forall k, ~ edge pgb c k j) by (intros k; eapply ready_edge; eauto). destruct (net_leave pgb c c' j C NE H1 H2) as [C' T]. destruct PR as (PT & _). split; [split; auto|].
    - intros k q Lq. rewrite H2 by auto. destruct (k =? j); [lia|]. now apply B.
    - split; auto. split; [|lia]. apply net_minimal; auto. lia.
  Qed.

  (** ** Methods *)
  Section Meth.
    Variables (m : method) (j : nat) (c : conf).
    Notation nn := (length (m_subs m)).
    Definition mord : list (nat * nat) := map (fun e => (nn - 1 - fst e, nn - 1 - snd e)) (m_ord m).
    Notation o := (meth_s m (rev (m_subs m)) mord j).
    Hypotheses (N1 : 1 <= nn) (FIT : nn + j <= pgb) (OR : forall a b, In (a, b) (m_ord m) -> a < b < nn).

    Lemma pos_place a : a < nn -> pos pgb j m a = place pgb nn j (nn - 1 - a).
    Proof. intros L. unfold pos, place. destruct (Nat.eq_dec (S a) nn) as [E|E]; destruct (nn - 1 - a) as [|b] eqn:Eb; lia. Qed.

    Lemma combine_in (r : list nat) k : forall s x l, length r = k -> (In (l, x) (combine (seq s k) r) <-> s <= l /\ nth_error r (l - s) = Some x).
    Proof.
      revert r. induction k as [|k IH]; intros [|y r] s x l E; try discriminate; cbn.
      - split; [intros []|]. intros [_ H]. destruct (l - s); discriminate.
      - injection E as E. rewrite IH by auto. split.
        + intros [[= <- <-]|[L H]]; [rewrite Nat.sub_diag; auto|]. split; [lia|]. now replace (l - s) with (S (l - S s)) by lia.
        + intros [L H]. destruct (Nat.eq_dec l s) as [->|D]; [rewrite Nat.sub_diag in H; cbn in H; left; congruence|]. right. split; [lia|]. now (replace (l - s) with (S (l - S s)) in H by lia).
    Qed.

    Lemma madd_in e : In e (s_add o) <-> e = (ST j, S (nth (nn - 1) (m_subs m) 0)) \/
      (exists p, pgb - nn < p < pgb /\ e = (ST p, S (nth (pgb - 1 - p) (m_subs m) 0))) \/ (exists p, pgb - nn < p < pgb /\ e = (SK p, 1)).
    Proof.
      unfold meth_s. cbn [s_add]. assert (LR := rev_length (m_subs m)). destruct (rev (m_subs m)) as [|t r] eqn:Er; [cbn in LR; lia|]. cbn [length] in LR. replace (length (t :: r)) with nn by (cbn; lia).
      assert (RN : forall k, k < nn -> nth k (t :: r) 0 = nth (nn - 1 - k) (m_subs m) 0). { intros k Lk. rewrite <- Er, rev_nth by auto. f_equal. lia. }
      assert (Et : t = nth (nn - 1) (m_subs m) 0). { specialize (RN 0 ltac:(lia)). cbn in RN. now rewrite Nat.sub_0_r in RN. }
      cbn [In]. rewrite in_app_iff, !in_map_iff. rewrite <- Et. split.
      - intros [<-|[([l x] & <- & I)|(l & <- & I)]]; auto.
        + apply (combine_in r (nn - 1) 0 x l) in I; [|lia]. destruct I as [_ I]. rewrite Nat.sub_0_r in I. assert (Ll : l < length r) by (apply nth_error_Some; congruence). right. left. exists (pgb - nn + 1 + l). split; [lia|]. cbn [fst snd plus]. do 2 f_equal.
          specialize (RN (S l) ltac:(lia)). cbn in RN. rewrite (nth_error_nth _ _ 0 I) in RN. rewrite RN. f_equal. lia.
        + apply in_seq in I. right. right. exists (pgb - 1 - l). split; [lia|auto].
      - intros [->|[(p & Lp & ->)|(p & Lp & ->)]]; auto; right.
        + left. exists (p - (pgb - nn + 1), nth (pgb - 1 - p) (m_subs m) 0). cbn [fst snd plus]. split; [repeat f_equal; lia|]. apply combine_in; [lia|]. split; [lia|]. rewrite Nat.sub_0_r.
          rewrite (nth_error_nth' r 0) by lia. f_equal. specialize (RN (S (p - (pgb - nn + 1))) ltac:(lia)). cbn [nth] in RN. rewrite RN. f_equal. lia.
        + right. exists (pgb - 1 - p). rewrite in_seq. split; [repeat f_equal; lia|lia].
    Qed.
    Lemma mcond_in x e : In (x, e) (s_cond o) <-> (exists k p, k < j /\ pgb - nn < p < pgb /\ x = (SC j k, 1) /\ e = (SC p k, 1)) \/
      (exists a b, In (a, b) (m_ord m) /\ x = (SC (pos pgb j m a) (pos pgb j m b), 0) /\ e = (SC (pos pgb j m a) (pos pgb j m b), 1)).
    Proof.
      unfold meth_s. cbn [s_cond]. rewrite rev_length. destruct (Nat.leb_spec nn 1) as [L|L].
      - split; [intros []|]. intros [(k & p & _ & Lp & _)|(a & b & I & _)]; [lia|]. apply OR in I. lia.
      - rewrite in_app_iff. split.
        + intros [I|I].
          * left. apply in_concat in I as (l & I & J). apply in_map_iff in I as (q & <- & I). apply in_seq in I. apply in_map_iff in J as (k & E & J). apply in_seq in J. injection E as <- <-. exists k, (pgb - q - 1). repeat split; auto; lia.
          * right. apply in_map_iff in I as ([a' b'] & E & I). unfold mord in I. apply in_map_iff in I as ([a b] & E' & I). injection E' as <- <-. assert (X := OR a b I). cbn [fst snd] in *. rewrite <- !pos_place in E by lia. injection E as <- <-. exists a, b. auto.
        + intros [(k & p & Lk & Lp & -> & ->)|(a & b & I & -> & ->)].
          * left. apply in_concat. exists (map (fun k => ((SC j k, 1), (SC p k, 1))) (seq 0 j)). split.
            -- apply in_map_iff. exists (pgb - 1 - p). rewrite in_seq. split; [|lia]. replace (pgb - (pgb - 1 - p) - 1) with p by lia. reflexivity.
            -- apply in_map_iff. exists k. rewrite in_seq. split; [auto|lia].
          * right. apply in_map_iff. exists (nn - 1 - a, nn - 1 - b). assert (X := OR a b I). cbn [fst snd]. rewrite <- !pos_place by lia. split; auto. unfold mord. apply in_map_iff. exists (a, b). auto.
    Qed.

    Notation c' := (seff o c).
    Lemma meth_val : (forall p, p < pgb -> c' (ST p) = if p =? j then S (nth (nn - 1) (m_subs m) 0) else if pgb - nn <? p then S (nth (pgb - 1 - p) (m_subs m) 0) else c (ST p)) /\
      (forall p, p < pgb -> c' (SK p) = if pgb - nn <? p then 1 else c (SK p)) /\ (forall p, c' (SM p) = c (SM p)).
    Proof.
      assert (NF : forall s d, In (s, d) (fired o c) -> exists k q, s = SC k q). { intros s d I. apply fired_in in I as (x & y & I & _). apply mcond_in in I as [(k & p & _ & _ & _ & [= -> _])|(a & b & _ & _ & [= -> _])]; eauto. }
      split; [|split].
      - intros p L. unfold seff. destruct (upd_case (s_add o ++ fired o c) c (ST p)) as [(d & I & ->)|[I ->]].
        + apply in_app_or in I as [I|I]; [|apply NF in I as (k & q & [=])]. apply madd_in in I as [[= -> ->]|[(q & Lq & [= -> ->])|(q & _ & [=])]]; [now rewrite Nat.eqb_refl|]. destruct (Nat.eqb_spec q j); [lia|]. destruct (Nat.ltb_spec (pgb - nn) q); [auto|lia].
        + destruct (Nat.eqb_spec p j) as [->|D]; [exfalso; eapply I; apply in_or_app; left; apply madd_in; left; reflexivity|]. destruct (Nat.ltb_spec (pgb - nn) p); auto. exfalso. eapply I. apply in_or_app. left. apply madd_in. right. left. exists p. split; [lia|reflexivity].
      - intros p L. unfold seff. destruct (upd_case (s_add o ++ fired o c) c (SK p)) as [(d & I & ->)|[I ->]].
        + apply in_app_or in I as [I|I]; [|apply NF in I as (k & q & [=])]. apply madd_in in I as [[=]|[(q & Lq & [=])|(q & Lq & [= -> ->])]]. destruct (Nat.ltb_spec (pgb - nn) q); [auto|lia].
        + destruct (Nat.ltb_spec (pgb - nn) p); auto. exfalso. eapply I. apply in_or_app. left. apply madd_in. right. right. exists p. split; [lia|reflexivity].
      - intros p. unfold seff. destruct (upd_case (s_add o ++ fired o c) c (SM p)) as [(d & I & ->)|[I ->]]; auto.
        apply in_app_or in I as [I|I]; [|apply NF in I as (k & q & [=])]. apply madd_in in I as [[=]|[(q & Lq & [=])|(q & Lq & [=])]].
    Qed.
    Lemma meth_sc k q : (c' (SC k q) = 1 /\ ((exists p, q < j /\ pgb - nn < p < pgb /\ c (SC j q) = 1 /\ k = p) \/
                                           (exists a b, In (a, b) (m_ord m) /\ k = pos pgb j m a /\ q = pos pgb j m b /\ c (SC k q) = 0))) \/
      (c' (SC k q) = c (SC k q) /\ (c (SC j q) = 1 -> q < j -> ~ pgb - nn < k < pgb) /\ (forall a b, In (a, b) (m_ord m) -> k = pos pgb j m a -> q = pos pgb j m b -> c (SC k q) <> 0)).
    Proof.
      unfold seff. destruct (upd_case (s_add o ++ fired o c) c (SC k q)) as [(d & I & ->)|[I ->]].
      - left. apply in_app_or in I as [I|I]; [apply madd_in in I as [[=]|[(p & Lq & [=])|(p & Lq & [=])]]|]. apply fired_in in I as (s & d' & I & E). apply mcond_in in I as [(l & p & Ll & Lp & [= -> ->] & [= -> -> ->])|(a & b & I & [= -> ->] & [= -> -> ->])].
        + split; auto. left. exists p. auto.
        + split; auto. right. exists a, b. auto.
      - right. split; auto. split.
        + intros E Lq Lk. apply (I 1). apply in_or_app. right. apply fired_in. exists (SC j q), 1. split; auto. apply mcond_in. left. exists q, k. auto.
        + intros a b J -> -> Z. apply (I 1). apply in_or_app. right. apply fired_in. eexists _, 0. split; [apply mcond_in; right; exists a, b; split; [exact J|split; reflexivity]|exact Z].
    Qed.

    Lemma meth_ok : ok c -> spre o c -> ok c' /\ (exists f, iso f (decF (net pgb c) [j] m) (net pgb c')) /\ minimal (net pgb c) [j] /\ c (ST j) = S (m_task m).
    Proof.
      intros [C B] PR. assert (Lj : j < pgb) by lia. assert (RD : ready c j (m_task m + 1)) by (apply ready_iff; auto; intros p I; apply PR; unfold meth_s; cbn [s_prec]; apply in_or_app; auto).
      assert (FR : forall a, S a < nn -> c (ST (pgb - 1 - a)) = 0). { intros a La. apply (PR (ST (pgb - 1 - a), 0)). unfold meth_s. cbn [s_prec]. apply in_or_app. right. rewrite rev_length. apply in_map_iff. exists a. rewrite in_seq. split; [auto|lia]. }
      assert (NE : forall k, ~ edge pgb c k j) by (intros k; eapply ready_edge; eauto). assert (OC : c (ST j) = S (m_task m)) by (destruct RD as [-> _]; lia).
      assert (HE : forall k q, edge pgb c' k q <-> edge pgb c k q \/ (exists a, a < nn /\ k = pos pgb j m a /\ edge pgb c j q) \/ (exists a b, In (a, b) (m_ord m) /\ k = pos pgb j m a /\ q = pos pgb j m b)).
      { assert (PL : forall a b, In (a, b) (m_ord m) -> pos pgb j m b < pos pgb j m a < pgb). { intros a b I. apply OR in I. unfold pos. destruct (Nat.eq_dec (S a) nn), (Nat.eq_dec (S b) nn); lia. }
        intros k q. split.
        - intros [L E]. destruct (meth_sc k q) as [[_ [(p & Lq & Lp & Ep & ->)|(a & b & I & -> & -> & _)]]|(E' & _)].
          + right. left. exists (pgb - 1 - p). split; [lia|]. split; [unfold pos; destruct (Nat.eq_dec (S (pgb - 1 - p)) nn); lia|]. split; auto.
          + right. right. eauto.
          + left. split; auto. congruence.
        - intros [[L E]|[(a & La & -> & L & E)|(a & b & I & -> & ->)]].
          + split; auto. destruct (meth_sc k q) as [[X _]|(X & _)]; congruence.
          + assert (Lp : q < pos pgb j m a < pgb) by (unfold pos; destruct (Nat.eq_dec (S a) nn); lia). split; auto. destruct (meth_sc (pos pgb j m a) q) as [[X _]|(X & Y & _)]; auto. rewrite X. unfold pos in *. destruct (Nat.eq_dec (S a) nn) as [D|D]; auto. exfalso. apply Y; auto; lia.
          + assert (Lp := PL a b I). split; auto. destruct (meth_sc (pos pgb j m a) (pos pgb j m b)) as [[X _]|(X & _ & Y)]; auto. rewrite X. specialize (Y a b I eq_refl eq_refl). assert (Z := B _ _ Lp). lia. }
      destruct meth_val as (HT & HK & HM). split; [split|split; [|split]].
      - eapply dec_clean; eauto.
      - intros k q L. destruct (meth_sc k q) as [[-> _]|(-> & _)]; [lia|]. now apply B.
      - eapply net_dec; eauto.
      - apply net_minimal; auto. lia.
      - exact OC.
    Qed.
  End Meth.

  (** ** Moves *)
  Section Move.
    Variables (i j : nat) (c : conf).
    Hypothesis (L : 1 <= j < pgb).
    Notation o := (move_s i j).
    Lemma vadd_in e : In e (s_add o) <-> e = (ST j, 0) \/ e = (SK j, 0) \/ e = (ST (j - 1), S i) \/ e = (SK (j - 1), 1) \/ e = (SM j, 0) \/
      (exists q, q < j - 1 /\ e = (SC j q, 0)) \/ (exists k, j < k < pgb /\ e = (SC k j, 0)).
    Proof.
      unfold move_s. cbn [s_add app In]. rewrite in_map_iff. split.
      - intros [<-|[<-|[<-|[<-|[<-|(l & <- & I)]]]]]; auto 10. apply in_seq in I. do 5 right. destruct (Nat.ltb_spec l (j - 1)); [left; eauto|]. right. exists (l + 2). split; [lia|auto].
      - intros [->|[->|[->|[->|[->|[(q & Lq & ->)|(k & Lk & ->)]]]]]]; auto 10; do 5 right.
        + exists q. rewrite in_seq. split; [|lia]. destruct (Nat.ltb_spec q (j - 1)); [auto|lia].
        + exists (k - 2). rewrite in_seq. split; [|lia]. destruct (Nat.ltb_spec (k - 2) (j - 1)); [lia|]. repeat f_equal. lia.
    Qed.
    Lemma vcond_in x e : In (x, e) (s_cond o) <-> (exists q, q < j - 1 /\ x = (SC j q, 1) /\ e = (SC (j - 1) q, 1)) \/ (exists k, j < k < pgb /\ x = (SC k j, 1) /\ e = (SC k (j - 1), 1)) \/
      (1 < j /\ x = (SK (j - 2), 0) /\ e = (SM (j - 1), 1)) \/ (1 < j /\ x = (SK (j - 2), 1) /\ e = (SM (j - 1), 0)).
    Proof.
      unfold move_s. cbn [s_cond]. rewrite in_app_iff, in_map_iff. split.
      - intros [(l & E & I)|I].
        + apply in_seq in I. destruct (Nat.ltb_spec l (j - 1)); injection E as <- <-; [left; eauto|]. right. left. exists (l + 2). split; [lia|auto].
        + destruct (Nat.ltb_spec 1 j); [|destruct I]. destruct I as [[= <- <-]|[[= <- <-]|[]]]; auto 10.
      - intros [(q & Lq & -> & ->)|[(k & Lk & -> & ->)|[(J & -> & ->)|(J & -> & ->)]]].
        + left. exists q. rewrite in_seq. split; [|lia]. destruct (Nat.ltb_spec q (j - 1)); [auto|lia].
        + left. exists (k - 2). rewrite in_seq. split; [|lia]. destruct (Nat.ltb_spec (k - 2) (j - 1)); [lia|]. repeat f_equal; lia.
        + right. destruct (Nat.ltb_spec 1 j); [cbn; auto|lia].
        + right. destruct (Nat.ltb_spec 1 j); [cbn; auto|lia].
    Qed.
    Notation c' := (seff o c).
    Lemma move_val : (forall p, c' (ST p) = if p =? j then 0 else if p =? j - 1 then S i else c (ST p)) /\
      (forall p, c' (SK p) = if p =? j then 0 else if p =? j - 1 then 1 else c (SK p)) /\
      (forall p, p <> j - 1 -> c' (SM p) = if p =? j then 0 else c (SM p)) /\
      (j = 1 -> c' (SM 0) = c (SM 0)) /\ (1 < j -> c (SK (j - 2)) = 0 -> c' (SM (j - 1)) = 1) /\ (1 < j -> c (SK (j - 2)) = 1 -> c' (SM (j - 1)) = 0).
    Proof.
      assert (FI : forall s d, In (s, d) (fired o c) -> (exists k q, s = SC k q) \/ (1 < j /\ c (SK (j - 2)) = 0 /\ (s, d) = (SM (j - 1), 1)) \/ (1 < j /\ c (SK (j - 2)) = 1 /\ (s, d) = (SM (j - 1), 0))).
      { intros s d I. apply fired_in in I as (x & y & I & E). apply vcond_in in I as [(q & _ & _ & [= -> _])|[(k & _ & _ & [= -> _])|[(J & [= -> ->] & ->)|(J & [= -> ->] & ->)]]]; eauto 6. }
      assert (FJ1 : 1 < j -> c (SK (j - 2)) = 0 -> In (SM (j - 1), 1) (fired o c)) by (intros J E; apply fired_in; exists (SK (j - 2)), 0; split; auto; apply vcond_in; auto 6).
      assert (FJ2 : 1 < j -> c (SK (j - 2)) = 1 -> In (SM (j - 1), 0) (fired o c)) by (intros J E; apply fired_in; exists (SK (j - 2)), 1; split; auto; apply vcond_in; auto 6).
      assert (SMV : forall p d, In (SM p, d) (s_add o ++ fired o c) -> (p = j /\ d = 0) \/ (1 < j /\ p = j - 1 /\ ((c (SK (j - 2)) = 0 /\ d = 1) \/ (c (SK (j - 2)) = 1 /\ d = 0)))).
      { intros p d I. apply in_app_or in I as [I|I].
        - apply vadd_in in I as [[=]|[[=]|[[=]|[[=]|[[= -> ->]|[(q & _ & [=])|(k & _ & [=])]]]]]]. auto.
        - apply FI in I as [(k & q & [=])|[(J & E & [= -> ->])|(J & E & [= -> ->])]]; auto 6. }
      unfold seff. split; [|split; [|split; [|split; [|split]]]].
      - intros p. destruct (upd_case (s_add o ++ fired o c) c (ST p)) as [(d & I & ->)|[I ->]].
        + apply in_app_or in I as [I|I]; [|apply FI in I as [(k & q & [=])|[(_ & _ & [=])|(_ & _ & [=])]]].
          apply vadd_in in I as [[= -> ->]|[[=]|[[= -> ->]|[[=]|[[=]|[(q & _ & [=])|(k & _ & [=])]]]]]]; [now rewrite Nat.eqb_refl|]. destruct (Nat.eqb_spec (j - 1) j); [lia|]. now rewrite Nat.eqb_refl.
        + destruct (Nat.eqb_spec p j) as [->|D]; [exfalso; apply (I 0), in_or_app; left; apply vadd_in; auto|]. destruct (Nat.eqb_spec p (j - 1)) as [->|D']; auto. exfalso. apply (I (S i)), in_or_app. left. apply vadd_in. auto.
      - intros p. destruct (upd_case (s_add o ++ fired o c) c (SK p)) as [(d & I & ->)|[I ->]].
        + apply in_app_or in I as [I|I]; [|apply FI in I as [(k & q & [=])|[(_ & _ & [=])|(_ & _ & [=])]]].
          apply vadd_in in I as [[=]|[[= -> ->]|[[=]|[[= -> ->]|[[=]|[(q & _ & [=])|(k & _ & [=])]]]]]]; [now rewrite Nat.eqb_refl|]. destruct (Nat.eqb_spec (j - 1) j); [lia|]. now rewrite Nat.eqb_refl.
        + destruct (Nat.eqb_spec p j) as [->|D]; [exfalso; apply (I 0), in_or_app; left; apply vadd_in; auto|]. destruct (Nat.eqb_spec p (j - 1)) as [->|D']; auto. exfalso. apply (I 1), in_or_app. left. apply vadd_in. auto.
      - intros p D. destruct (upd_case (s_add o ++ fired o c) c (SM p)) as [(d & I & ->)|[I ->]].
        + apply SMV in I as [[-> ->]|(_ & -> & _)]; [now rewrite Nat.eqb_refl|congruence].
        + destruct (Nat.eqb_spec p j) as [->|]; auto. exfalso. apply (I 0), in_or_app. left. apply vadd_in. auto 6.
      - intros J. destruct (upd_case (s_add o ++ fired o c) c (SM 0)) as [(d & I & ->)|[I ->]]; auto. apply SMV in I as [[E _]|(E & _)]; lia.
      - intros J Z. destruct (upd_case (s_add o ++ fired o c) c (SM (j - 1))) as [(d & I & ->)|[I ->]]; [|exfalso; apply (I 1), in_or_app; auto]. apply SMV in I as [[E _]|(_ & _ & [[_ ->]|[Y _]])]; [lia|auto|lia].
      - intros J Z. destruct (upd_case (s_add o ++ fired o c) c (SM (j - 1))) as [(d & I & ->)|[I ->]]; [|exfalso; apply (I 0), in_or_app; auto]. apply SMV in I as [[E _]|(_ & _ & [[Y _]|[_ ->]])]; [lia|lia|auto].
    Qed.
    Lemma move_sc k q : q < k < pgb ->
      (k = j /\ q < j - 1 /\ c' (SC k q) = 0) \/ (q = j /\ c' (SC k q) = 0) \/
      (k = j - 1 /\ ((c (SC j q) = 1 /\ c' (SC k q) = 1) \/ (c (SC j q) <> 1 /\ c' (SC k q) = c (SC k q)))) \/
      (j < k /\ q = j - 1 /\ ((c (SC k j) = 1 /\ c' (SC k q) = 1) \/ (c (SC k j) <> 1 /\ c' (SC k q) = c (SC k q)))) \/
      (k = j /\ q = j - 1 /\ c' (SC k q) = c (SC k q)) \/ (k <> j /\ q <> j /\ k <> j - 1 /\ q <> j - 1 /\ c' (SC k q) = c (SC k q)).
    Proof.
      intros Lq. assert (SCV : forall d, In (SC k q, d) (s_add o ++ fired o c) <-> (d = 0 /\ ((k = j /\ q < j - 1) \/ (q = j))) \/ (d = 1 /\ ((k = j - 1 /\ c (SC j q) = 1) \/ (j < k /\ q = j - 1 /\ c (SC k j) = 1)))).
      { intros d. rewrite in_app_iff, vadd_in, fired_in. split.
        - intros [[[=]|[[=]|[[=]|[[=]|[[=]|[(q' & Lq' & [= -> -> ->])|(k' & Lk' & [= -> -> ->])]]]]]]|(s & y & I & E)]; [left; auto 6|left; auto 6|].
          apply vcond_in in I as [(q' & Lq' & [= -> ->] & [= -> -> ->])|[(k' & Lk' & [= -> ->] & [= -> -> ->])|[(_ & _ & [=])|(_ & _ & [=])]]]; right; split; auto. right. split; [lia|auto].
        - intros [[-> [[-> X]| ->]]|[-> [[-> E]|(X & -> & E)]]].
          + left. do 5 right. left. eauto.
          + left. do 6 right. exists k. split; auto; lia.
          + right. exists (SC j q), 1. split; auto. apply vcond_in. left. exists q. split; [lia|auto].
          + right. exists (SC k j), 1. split; auto. apply vcond_in. right. left. exists k. split; [lia|auto]. }
      unfold seff. destruct (upd_case (s_add o ++ fired o c) c (SC k q)) as [(d & I & ->)|[I E]].
      - apply SCV in I as [[-> [[-> X]| ->]]|[-> [[-> E]|(X & -> & E)]]]; auto 15.
      - set (c2 := upd (s_add o ++ fired o c) c (SC k q)) in *. destruct (Nat.eq_dec k j) as [->|Nk].
        + destruct (Nat.eq_dec q (j - 1)) as [->|Nq]; [auto 15|]. exfalso. apply (I 0), SCV. left. split; auto. left. split; auto; lia.
        + destruct (Nat.eq_dec q j) as [->|Nq]; [exfalso; apply (I 0), SCV; left; auto|]. destruct (Nat.eq_dec k (j - 1)) as [->|Nk'].
          * right. right. left. split; auto. right. split; auto. intros Z. apply (I 1), SCV. right. auto.
          * destruct (Nat.eq_dec q (j - 1)) as [->|Nq']; [|auto 15]. right. right. right. left. split; [lia|]. split; auto. right. split; auto. intros Z. apply (I 1), SCV. right. split; auto. right. split; auto. lia.
    Qed.
    Lemma move_ok : ok c -> c (ST j) = S i -> c (ST (j - 1)) = 0 -> ok c' /\ exists f, iso f (net pgb c) (net pgb c').
    Proof.
      intros [C B] OC FR. destruct move_val as (HT & _). assert (Z : forall k q, q < k < pgb -> k = j - 1 \/ q = j - 1 -> c (SC k q) = 0).
      { intros k q Lq D. assert (X := B k q Lq). destruct (Nat.eq_dec (c (SC k q)) 1) as [E|E]; [|lia]. destruct (C k q (conj Lq E)) as [X1 X2]. destruct D; subst; congruence. }
      assert (E1 : forall k q, edge pgb c k q -> edge pgb c' (relabel j (j - 1) k) (relabel j (j - 1) q)).
      { intros k q [Lq E]. unfold relabel. assert (D : k <> j - 1 /\ q <> j - 1) by (split; intros ->; rewrite Z in E by auto; discriminate).
        destruct (Nat.eqb_spec k j) as [->|Nk], (Nat.eqb_spec q j) as [->|Nq]; [lia| | |].
        - split; [lia|]. destruct (move_sc (j - 1) q) as [X|[X|[X|[X|[X|X]]]]]; try lia.
        - split; [lia|]. destruct (move_sc k (j - 1)) as [X|[X|[X|[X|[X|X]]]]]; try lia.
        - split; [lia|]. destruct (move_sc k q Lq) as [X|[X|[X|[X|[X|X]]]]]; try lia. }
      assert (E2 : forall k q, edge pgb c' k q -> edge pgb c (relabel (j - 1) j k) (relabel (j - 1) j q)).
      { intros k q [Lq E]. unfold relabel. assert (D : k <> j /\ q <> j). { destruct (move_sc k q Lq) as [X|[X|[X|[X|[X|X]]]]]; try lia. exfalso. assert (c (SC k q) = 0) by (apply Z; auto; lia). lia. }
        destruct (Nat.eqb_spec k (j - 1)) as [->|Nk], (Nat.eqb_spec q (j - 1)) as [->|Nq]; [lia| | |].
        - split; [lia|]. destruct (move_sc (j - 1) q Lq) as [X|[X|[X|[X|[X|X]]]]]; try lia. assert (c (SC (j - 1) q) = 0) by (apply Z; auto). lia.
        - split; [lia|]. destruct (move_sc k (j - 1) Lq) as [X|[X|[X|[X|[X|X]]]]]; try lia. assert (c (SC k (j - 1)) = 0) by (apply Z; auto). lia.
        - split; [lia|]. destruct (move_sc k q Lq) as [X|[X|[X|[X|[X|X]]]]]; try lia. }
      assert (HT' : forall p, p < pgb -> c' (ST p) = if p =? j then 0 else if p =? j - 1 then c (ST j) else c (ST p)) by (intros p _; rewrite HT, OC; reflexivity).
      assert (C' : clean pgb c').
      { intros k q E. destruct E as [Lq E]. assert (X := E2 k q (conj Lq E)). assert (Y := C _ _ X). rewrite !HT. unfold relabel in *.
        assert (D : k <> j /\ q <> j). { destruct (move_sc k q Lq) as [X'|[X'|[X'|[X'|[X'|X']]]]]; try lia. exfalso. assert (c (SC k q) = 0) by (apply Z; auto; lia). lia. }
        destruct (Nat.eqb_spec k j); [lia|]. destruct (Nat.eqb_spec q j); [lia|]. destruct (Nat.eqb_spec k (j - 1)), (Nat.eqb_spec q (j - 1)); split; try discriminate; tauto. }
      split; [split; auto|].
      - intros k q Lq. assert (X := B k q Lq). destruct (move_sc k q Lq) as [X'|[X'|[X'|[X'|[X'|X']]]]]; lia.
      - eapply (net_move pgb c c' j (j - 1)); eauto; lia.
    Qed.
  End Move.
End Sys.
