(** The visited list in A* search: with reopening, it only rejects nodes for which an equal node with at most the same costs has been accepted. *)
From Coq Require Import ZArith NArith.
From Verif Require Import Base Rel Htn_model Htn_spec Htn_sem Htn_iso Htn_rep Htn_proof Htn_history Htn_search Htn_hist Vis_model Vis_proof VisOrd_proof.
From Verif Require Fringe_model.
From Verif Require Import Astar_model Astar_proof.

(** insertVisi when the f value of the node is [f]. *)
Definition with_f (par : vpar) (f : nat) : vpar :=
  {| vp_perm := vp_perm par; vp_prime := vp_prime par; vp_contained := vp_contained par; vp_f := fun _ _ => f; vp_al := vp_al par |}.

Section Step.
  Variables (P : problem) (C : config) (c : vconf) (par : vpar).
  Variable sig : tnet -> list nat -> Prop.
  Hypothesis OFF : vc_off c = false.
  Hypothesis MODE : vc_TO c || vc_PS c = true.
  Hypothesis TP : vc_topo c = true.
  Hypothesis NF : 0 < p_nfacts P.
  Hypothesis NB : 0 < vc_bits c.
  Hypothesis HS : forall w l n s tn pi, history P C w l -> In n l -> Rep P (w_heap w) n s tn pi ->
    exists sq, vis_sequence c par (w_heap w) n = Some sq /\ sig tn sq /\ forall t, In t sq -> t < 2 ^ vc_bits c.
  Hypothesis HI : forall a b sq, sig a sq -> sig b sq -> exists f, iso f a b.
  (** [Q s tn g f]: a node with the meaning [s], [tn] and costs [g] may have been stored with value [f]. *)
  Variable Q : state -> tnet -> nat -> nat -> Prop.

  Definition fromc (L : list (state * tnet * nat)) (e : entry) : Prop :=
    exists s tn g st sq, In (s, tn, g) L /\ length st = p_nfacts P /\ (forall f, s f <-> get st f = Some true) /\ sig tn sq /\ (forall t, In t sq -> t < 2 ^ vc_bits c) /\
      snd (fst e) = kbits c st sq /\ exists f, Q s tn g f /\ (vc_noReopen c = false -> f <= snd e).
  Definition vinvc (v : vtable) (L : list (state * tnet * nat)) : Prop := exists log, tab_inv (vc_noReopen c) v log /\ forall e, In e log -> fromc L e.
  Definition v_totalc (f : nat) (w : world) (v : vtable) (n : node) : bool * vtable := match insertVisi c (with_f par f) w v n with Some r => r | None => (true, v) end.

  Lemma cost_insert w v n s tn g f L : op_ok P C w n s tn -> Q s tn g f -> vinvc v L ->
    (fst (v_totalc f w v n) = true -> vinvc (snd (v_totalc f w v n)) ((s, tn, g) :: L)) /\
    (fst (v_totalc f w v n) = false -> vinvc (snd (v_totalc f w v n)) L /\
       exists s2 tn2 g2 f2, In (s2, tn2, g2) L /\ same_node s tn s2 tn2 /\ Q s2 tn2 g2 f2 /\ (vc_noReopen c = false -> f2 <= f)).
  Proof.
    intros OK QF (log & TI & FL). destruct (insert_simple P C c (with_f par f) sig OFF MODE TP NF NB HS w v n s tn OK) as (sq & Es & Sg & B & NK & AE & EI).
    destruct OK as (l & pi & H & Hn & R).
    set (b := vis_bucket c (with_f par f) w n sq) in *. set (K := kbits c (n_state n) sq) in *. cbn [vp_f with_f] in *.
    assert (FM : forall e, fromc L e -> fromc ((s, tn, g) :: L) e) by (intros e (s2 & tn2 & g2 & st & sq2 & H2 & X); exists s2, tn2, g2, st, sq2; split; [now right|exact X]).
    assert (NEW : fromc ((s, tn, g) :: L) (b, K, f)).
    { exists s, tn, g, (n_state n), sq. split; [now left|]. split; [apply R|]. split; [apply R|]. split; [auto|]. split; [auto|]. split; [auto|]. exists f. split; auto. }
    pose proof (cost_step c v log b K f _ NK AE TI) as ST. unfold v_totalc. rewrite EI.
    destruct (tbl_access v b K (v_acc c (with_f par f) w n)) as [[v' old]|]; cbn [obind fst snd].
    - destruct ST as [TI' AN]. split.
      + intros _. exists ((b, K, f) :: log). split; auto. intros e [<-|He]; auto.
      + intros X. apply AN in X as (e & He & Me & LE). destruct (FL e He) as (s2 & tn2 & g2 & st & sq2 & H2 & L2 & S2 & G2 & B2 & E2 & f2 & Q2 & LE2).
        rewrite Me in E2. cbn in E2. apply kbits_inj in E2 as [ES EQ]; auto; [|rewrite L2; apply R].
        assert (LF : vc_noReopen c = false -> f2 <= f). { intros NR. specialize (LE2 NR). destruct LE as [LE|LE]; [congruence|lia]. }
        split.
        * exists ((b, K, f) :: log). split; auto. intros e' [<-|He']; auto. exists s2, tn2, g2, st, sq2. split; auto. split; auto. split; auto. split; auto. split; auto.
          split; [cbn; unfold K; congruence|]. exists f2. split; auto.
        * exists s2, tn2, g2, f2. split; auto. split; [|split; auto]. split; [|subst sq2; eapply HI; eauto]. intros x. rewrite S2, <- ES. apply R.
    - split; [|discriminate]. intros _. exists log. split; auto.
  Qed.
End Step.
