(** C29: packing bit vectors into words is injective; C30: the compressed trie is a map from bit strings to payloads. *)
From Coq Require Import NArith.
From Verif Require Import Base Trie_model Trie_proof.

(** ** C29 *)

(** The packed form holds exactly the bits of the vector, then zeros; its length is given by the number of words and the padding. *)
Theorem state2Int_exact : forall st v p, state2Int st = (v, p) ->
  p < 64 /\ length st + p = 64 * length v /\ (forall w, In w v -> (w < 2 ^ 64)%N) /\
  forall i, N.testbit (nth (i / 64) v 0%N) (N.of_nat (i mod 64)) = nth i st false.
Proof.
  intros st v p E. destruct (state2Int_ok _ _ _ E) as [H1 H2 H3 H4]. split; auto. split; auto. split; auto.
  intros w Hw. specialize (H4 w Hw). destruct (N.eq_dec w 0) as [->|NZ]; [reflexivity|].
  apply N.log2_lt_pow2; [lia|]. destruct (N.lt_ge_cases (N.log2 w) 64) as [|G]; auto.
  pose proof (N.bit_log2 w NZ) as B. specialize (H4 (N.to_nat (N.log2 w)) ltac:(lia)). unfold tb in H4. rewrite N2Nat.id in H4. congruence.
Qed.

Theorem state2Int_injective : forall st1 st2, state2Int st1 = state2Int st2 -> st1 = st2.
Proof.
  intros st1 st2 E. destruct (state2Int st2) as [v p] eqn:E2. eapply key_inj; eapply state2Int_ok; eauto.
Qed.

(** ** C30 *)
Section Map.
  Context {A : Type}.

  (** One access of the visited list (VisitedList.cpp 519-526 and 538-590): the bit string [fst op] is looked up or inserted, the payload
      found there is returned and overwritten. *)
  Definition access (t : trie A) (op : list bool * (option A -> option A)) : option (trie A * option A) :=
    let '(v, p) := state2Int (fst op) in
    match t with TNil => Some (t_new (snd op) v p, None) | _ => t_insert (snd op) t v p end.

  (** The payloads returned by a sequence of accesses. *)
  Fixpoint trie_run (t : trie A) (ops : list (list bool * (option A -> option A))) : option (list (option A)) :=
    match ops with
    | [] => Some []
    | op :: r => '(t', old) <- access t op ;; olds <- trie_run t' r ;; Some (old :: olds)
    end.

  (** The same for a map. *)
  Fixpoint map_run (m : list bool -> option A) (ops : list (list bool * (option A -> option A))) : list (option A) :=
    match ops with
    | [] => []
    | op :: r => m (fst op) :: map_run (fun k => if list_eq_dec bool_dec k (fst op) then snd op (m (fst op)) else m k) r
    end.

  Definition tmap (t : trie A) (m : list bool -> option A) : Prop := twf 0 t /\ forall k, k <> [] -> find t 0 k = m k.

  Lemma new_ok acc K v p : K <> [] -> key_ok v p K ->
    twf 0 (t_new (A := A) acc v p) /\ forall k, k <> [] -> find (t_new (A := A) acc v p) 0 k = if list_eq_dec bool_dec k K then acc None else None.
  Proof.
    intros NK KO. pose proof KO as [K1 K2 K3 K4].
    assert (LK : 0 < length K) by (destruct K; [easy|cbn; lia]).
    assert (BV : forall q, vbit v 0 q = nth q K false).
    { intros q. unfold vbit. destruct (Nat.ltb_spec q (64 * 0)); [lia|]. rewrite Nat.mul_0_r, Nat.sub_0_r. apply K3. }
    assert (NO : node_ok 0 (length K) (length v) 0 0 p v).
    { split; auto; try lia. intros _ q H. rewrite BV in H. split; [lia|]. destruct (Nat.lt_ge_cases q (length K)); auto. rewrite nth_overflow in H by auto. discriminate. }
    split; [econstructor; eauto; constructor|]. intros k NZ. unfold t_new. cbn [find]. rewrite (end_eq _ _ _ _ _ _ _ NO).
    destruct (list_eq_dec bool_dec k K) as [->|NE].
    - rewrite (proj2 (agreeb_spec _ _ _ _ _)), Nat.eqb_refl; auto.
    - destruct (agreeb v 0 0 (min (length K) (length k)) k) eqn:G; auto. destruct (Nat.eqb_spec (length k) (length K)) as [E|N].
      + elim NE. apply nth_ext with (d := false) (d' := false); auto. intros i Li. rewrite <- BV. symmetry. apply (proj1 (agreeb_spec _ _ _ _ _) G). lia.
      + destruct (Nat.ltb (length k) (length K)); auto. now destruct (nth (length K) k false).
  Qed.

  Lemma access_ok t m K acc : K <> [] -> tmap t m ->
    match access t (K, acc) with
    | Some (t', old) => t' <> TNil /\ old = m K /\ tmap t' (fun k => if list_eq_dec bool_dec k K then acc (m K) else m k) /\
        ((forall o, acc o <> None) -> tfull t -> tfull t')
    | None => length K mod 64 = 0 /\ (tfull t -> exists K', m K' <> None /\ exists r, r <> [] /\ K' = K ++ r)
    end.
  Proof.
    intros NK [W F]. unfold access. cbn [fst snd]. destruct (state2Int K) as [v p] eqn:E. pose proof (state2Int_ok _ _ _ E) as KO.
    assert (LK : 0 < length K) by (destruct K; [easy|cbn; lia]).
    destruct t as [|pay bl fi gf il va z o].
    - destruct (new_ok acc K v p NK KO) as [W' F'].
      split; [discriminate|]. rewrite <- (F K NK). split; auto. split.
      + split; auto. intros k NZ. rewrite F' by auto. destruct (list_eq_dec bool_dec k K); auto. rewrite <- F by auto. reflexivity.
      + intros NN _. cbn. split; auto.
    - set (t := TNode pay bl fi gf il va z o) in *. pose proof (insert_ok acc v p K KO t 0 ltac:(discriminate) W LK) as P.
      destruct (t_insert acc t v p) as [[t' old]|].
      + destruct P as (P1 & P2 & P3 & P4 & P5 & _ & P7). rewrite (F K NK) in P3, P4. split; auto. split; auto. split; auto. split; auto.
        intros k NZ. destruct (list_eq_dec bool_dec k K) as [->|NE]; auto. rewrite P5; auto. intros [Q1 Q2]. apply NE.
        apply nth_ext with (d := false) (d' := false); auto. intros i Li. apply Q2. lia.
      + destruct P as [P1 P2]. split.
        { destruct KO as [K1 K2 K3 K4]. rewrite P1, Nat.add_0_r in K2. rewrite K2, Nat.mul_comm. apply Nat.mod_mul. lia. }
        intros FU. destruct (P2 FU [] eq_refl) as (K' & _ & Q2 & Q3 & Q4). exists K'. split; [rewrite <- F; auto; intros ->; cbn in Q3; lia|].
        exists (skipn (length K) K'). split.
        * intros Z. apply (f_equal (@length bool)) in Z. rewrite skipn_length in Z. cbn in Z. lia.
        * rewrite <- (firstn_skipn (length K) K') at 1. f_equal. apply nth_ext with (d := false) (d' := false); [rewrite firstn_length; lia|].
          intros i Li. rewrite firstn_length in Li. rewrite nth_firstn by lia. apply Q4. lia.
  Qed.

  Lemma map_run_ext ops : forall m m', (forall op, In op ops -> fst op <> []) -> (forall k, k <> [] -> m k = m' k) -> map_run m ops = map_run m' ops.
  Proof.
    induction ops as [|op r IH]; intros m m' NE H; cbn; auto. rewrite (H (fst op)) by (apply NE; now left). f_equal. apply IH; [intros; apply NE; now right|].
    intros k NZ. destruct (list_eq_dec bool_dec k (fst op)); auto.
  Qed.

  Lemma run_ok ops : forall t m olds, (forall op, In op ops -> fst op <> []) -> tmap t m -> trie_run t ops = Some olds -> olds = map_run m ops.
  Proof.
    induction ops as [|[K acc] r IH]; intros t m olds NE TM H; cbn [trie_run] in H; [now injection H as <-|].
    pose proof (access_ok t m K acc (NE _ (or_introl eq_refl)) TM) as P. destruct (access t (K, acc)) as [[t' old]|]; [|discriminate].
    cbn [obind] in H. apply obind_some in H as (os & H & Q). injection Q as <-. destruct P as (_ & -> & TM' & _). cbn [map_run fst snd]. f_equal.
    eapply IH; eauto. intros op Ho. apply NE. now right.
  Qed.

  (** Accesses to the trie return what accesses to a map would return. *)
  Theorem trie_exact : forall ops olds, (forall op, In op ops -> fst op <> []) ->
    trie_run TNil ops = Some olds -> olds = map_run (fun _ => None) ops.
  Proof. intros ops olds NE H. eapply run_ok; eauto. split; [constructor|reflexivity]. Qed.

  (** Undefined behaviour occurs only if a key that fills its last word is a proper prefix of a key inserted before. *)
  Theorem trie_defined : forall ops, (forall op, In op ops -> fst op <> []) -> (forall op, In op ops -> forall o, snd op o <> None) ->
    trie_run TNil ops = None ->
    exists ops1 K acc ops2 K' r, ops = ops1 ++ (K, acc) :: ops2 /\ In K' (map fst ops1) /\ K' = K ++ r /\ r <> [] /\ length K mod 64 = 0.
  Proof.
    assert (G : forall ops t m D, (forall op, In op ops -> fst op <> []) -> (forall op, In op ops -> forall o, snd op o <> None) -> tmap t m -> tfull t ->
       (forall k, m k <> None -> In k D) -> trie_run t ops = None ->
       exists ops1 K acc ops2 K' r, ops = ops1 ++ (K, acc) :: ops2 /\ In K' (D ++ map fst ops1) /\ K' = K ++ r /\ r <> [] /\ length K mod 64 = 0).
    { induction ops as [|[K acc] r IH]; intros t m D NE NA TM TF HD H; cbn [trie_run] in H; [discriminate|].
      pose proof (access_ok t m K acc (NE _ (or_introl eq_refl)) TM) as P. destruct (access t (K, acc)) as [[t' old]|].
      - cbn [obind] in H. destruct (trie_run t' r) eqn:R; [discriminate|]. destruct P as (_ & _ & TM' & TF').
        destruct (IH t' _ (D ++ [K]) ltac:(intros; apply NE; now right) ltac:(intros; apply NA; now right) TM' (TF' (NA _ (or_introl eq_refl)) TF)) as (o1 & K2 & a2 & o2 & K' & s & E & I & Q); auto.
        { intros k. destruct (list_eq_dec bool_dec k K) as [->|]; intros Hk; apply in_or_app; [right; now left|left; auto]. }
        exists ((K, acc) :: o1), K2, a2, o2, K', s. split; [now rewrite E|]. split; auto. rewrite <- app_assoc in I. exact I.
      - destruct P as [P1 P2]. destruct (P2 TF) as (K' & N & s & Ns & E). exists [], K, acc, r, K', s. split; auto. split; [rewrite app_nil_r; auto|auto]. }
    intros ops NE NA H. destruct (G ops TNil (fun _ => None) [] NE NA) as (o1 & K & a & o2 & K' & r & E & I & Q); cbn; auto.
    - split; [constructor|reflexivity].
    - exists o1, K, a, o2, K', r. auto.
  Qed.

  (** For prefix-free sets of keys the trie is a map. *)
  Theorem trie_map : forall ops, (forall op, In op ops -> fst op <> []) -> (forall op, In op ops -> forall o, snd op o <> None) ->
    (forall K r, In K (map fst ops) -> In (K ++ r) (map fst ops) -> r = []) ->
    trie_run TNil ops = Some (map_run (fun _ => None) ops).
  Proof.
    intros ops NE NA PF. destruct (trie_run TNil ops) as [olds|] eqn:E; [f_equal; now apply trie_exact|].
    destruct (trie_defined _ NE NA E) as (o1 & K & a & o2 & K' & r & -> & I & -> & N & _). elim N. apply (PF K).
    - rewrite map_app. apply in_or_app. right. now left.
    - rewrite map_app. apply in_or_app. now left.
  Qed.
End Map.

Module Ex.
  Definition put (n : nat) : option nat -> option nat := fun _ => Some n.
  Definition k1 : list bool := repeat true 70.
  Definition k2 : list bool := repeat true 65 ++ [false].
  Definition k3 : list bool := repeat true 10.
  Definition k4 : list bool := repeat false 130.
  (** Splits inside a word, at a word, at the root; repeated keys. *)
  Example run_ex : trie_run TNil [(k1, put 1); (k2, put 2); (k3, put 3); (k4, put 4); (k1, put 5); (k3, put 6); (k2, put 7); (k4, put 8); (k1, put 9)]
    = Some [None; None; None; None; Some 1; Some 3; Some 2; Some 4; Some 5].
  Proof. vm_compute. reflexivity. Qed.
  Example pack_ex : state2Int [true; false; true; true] = ([13%N], 60) /\ snd (state2Int (repeat true 64)) = 0 /\ snd (state2Int (repeat true 65)) = 63.
  Proof. vm_compute. auto. Qed.
  (** Keys of the same length are prefix-free. *)
  Example map_ex : let ops := [(k1, put 1); (k2 ++ repeat false 4, put 2); (repeat false 70, put 3)] in
    trie_run TNil ops = Some (map_run (fun _ => None) ops).
  Proof.
    intros ops. apply trie_map.
    - intros op [<-|[<-|[<-|[]]]]; discriminate.
    - intros op [<-|[<-|[<-|[]]]]; discriminate.
    - assert (L : forall K, In K (map fst ops) -> length K = 70) by (intros K [<-|[<-|[<-|[]]]]; reflexivity).
      intros K r H1 H2. apply L in H1, H2. rewrite app_length in H2. destruct r; auto. cbn in H2. lia.
  Qed.
  Lemma keys_ok : forall op, In op [(k1, put 1); (k2, put 2); (k3, put 3); (k4, put 4)] -> fst op <> [].
  Proof. intros op [<-|[<-|[<-|[<-|[]]]]]; discriminate. Qed.
End Ex.

(** C30 fails without restriction: a key of 64 bits that is a prefix of a stored key makes the code shift by 64 bits. *)
Theorem trie_defined_refuted : exists ops : list (list bool * (option nat -> option nat)),
  (forall op, In op ops -> fst op <> []) /\ (forall op, In op ops -> forall o, snd op o <> None) /\ trie_run TNil ops = None.
Proof.
  exists [(repeat true 70, Ex.put 1); (repeat true 64, Ex.put 2)]. split; [|split].
  - intros op [<-|[<-|[]]]; discriminate.
  - intros op [<-|[<-|[]]]; discriminate.
  - vm_compute. reflexivity.
Qed.

Print Assumptions state2Int_exact.
Print Assumptions state2Int_injective.
Print Assumptions trie_exact.
Print Assumptions trie_defined.
Print Assumptions trie_map.
Print Assumptions trie_defined_refuted.
