(** A blocking send after it has been woken. *)
From Coq Require Import List Bool Arith NArith Lia.
From Coq Require Import ZifyN ZifyNat ZifyBool.
From Verif Require CoreInv CoreStep RingFacts.
From Verif Require Import CoreArith RingSpec SoloSpec SeqModel Solo SoloFacts.
From Verif Require Import QueueSpec CoreModel WaitCellModel WaitList WaitQueueModel WaitQueueSpec WaitQueueFacts.
From Verif Require Import ChannelModel ChannelSpec ChannelFacts ChannelLink ChannelEvents ChannelRing ChannelInv ChannelSend ChannelProgress ChannelPoll SpinSpec.
From Verif Require Import History HistoryFacts.
Import ListNotations.

(** ** A push while the queue stays full *)
Section Full.
  Context {T : Type}.
  Variables (W : N) (cap : nat) (pol : policy T).
  Hypothesis Hwf : wf W cap.
  Notation P := (core_new W (N.of_nat cap)).

  Lemma full_push es r i spur r' e : run P pol es r -> calm (slack W cap) es -> occupancy es = cap -> closed_in es = false ->
    undecided (st_agents r i) = true -> step P pol r (AStep i spur) = Some (r', e) ->
    (e = None /\ undecided (st_agents r' i) = true) \/ (e = Some (RetFull i) /\ st_agents r' i = Idle).
  Proof.
    intros Hr HC Ho Hcl Hu Hs.
    destruct (good_now W cap pol Hwf _ _ Hr HC) as (q & hist & g & HI & HO).
    pose proof (CoreInv.inv_s _ _ _ _ _ _ _ HI) as HS. pose proof (CoreInv.inv_a _ _ _ _ _ _ _ HI i) as HA.
    assert (Hq : qclosed q = false) by (rewrite (h_closed _ _ _ HO); exact Hcl).
    assert (Hfull : length (qlog q) = qtaken q + cap).
    { rewrite (h_res _ _ _ HO), (h_take _ _ _ HO). pose proof (counts_now W cap pol Hwf _ _ Hr HC). unfold occupancy in Ho. lia. }
    destruct (r_undecided W cap pol r i spur r' e Hs Hu) as [[-> H]|[->|[->|[->| ->]]]].
    - left. auto.
    - exfalso. cbn [step] in Hs. destruct (stepping (st_agents r i)); [|discriminate].
      destruct (st_agents r i) eqn:E; try discriminate Hu; unfold cstep, push_top, idx_gen in Hs;
        try (repeat match type of Hs with
             | context [match ?x with _ => _ end] => lazymatch x with context [match _ with _ => _ end] => fail | _ => destruct x eqn:? end
             end; congruence).
      destruct HA as ((Et & Hle & Hcnt & _ & Hpend) & Hroom).
      destruct (N.eqb_spec (c_tail (st_core r)) tail) as [Eq|]; cbn [andb] in Hs;
        [|repeat match type of Hs with
             | context [match ?x with _ => _ end] => lazymatch x with context [match _ with _ => _ end] => fail | _ => destruct x eqn:? end
             end; congruence].
      rewrite (CoreInv.i_tail _ _ _ _ _ _ HS), Hq, Et in Eq. cbn [word] in Eq.
      destruct (CoreStep.calm_use _ _ _ _ HC Hpend) as [Hc1 _]. pose proof (slack_span _ _ Hwf).
      assert (Hg : g i = length (qlog q)) by (eapply (enc_inj _ _ Hwf); [symmetry; exact Eq|lia|lia]).
      specialize (Hroom Hg). lia.
    - right. split; [reflexivity|]. destruct (r_own _ _ _ _ _ _ _ Hs) as (_ & Hp & _). cbn [push_ret] in Hp.
      apply Hp. destruct (st_agents r i); try discriminate Hu; reflexivity.
    - exfalso. pose proof (solo_top W cap Hwf _ _ _ _ HS i) as Ht. rewrite Hq in Ht.
      cbn [step] in Hs. destruct (stepping (st_agents r i)); [|discriminate].
      destruct (st_agents r i) eqn:E; try discriminate Hu; unfold cstep, idx_gen in Hs; try rewrite Ht in Hs;
        repeat match type of Hs with
        | context [match ?x with _ => _ end] => lazymatch x with context [match _ with _ => _ end] => fail | _ => destruct x eqn:? end
        end; congruence.
    - exfalso. apply (RingFacts.no_ub W cap pol Hwf (UB i :: es)) with (i := i); [|apply (calm_quiet W cap Hwf); auto|now left].
      exists r'. exact (run_step _ _ _ _ _ _ _ Hr Hs).
  Qed.
End Full.

(** ** The loop of the blocking send_ref *)
Section Spin.
  Context {T : Type}.
  Variables (W : N) (cap : nat) (pol : policy T) (debug : bool).
  Hypothesis Hwf : wf W cap.
  Notation P := (core_new W (N.of_nat cap)).
  Notation cstep_sys := (@cstep_sys T P pol false debug).
  Notation crun := (@crun T P pol false debug).
  Notation tx_alone := (tx_alone P pol false debug).
  Local Arguments drop_id : simpl never.

  (** The waiter has been taken out of the queue, and the queue is full again. *)
  Definition turning (i : nat) (s : @chan T) (es : list (cevent T)) : Prop :=
    n_state (q_heap (ch_queue s) i) = Q_WAKING /\ occupancy (ring_of es) = cap /\ closed_in (ring_of es) = false /\
    match ch_tx s i with
    | TCall SQueued | TAgain SQueued => True
    | TPush SQueued => undecided (st_agents (ch_ring s) i) = true
    | TWait SQueued => match q_pc (ch_queue s) i with CLoad _ | SRet Notified => True | _ => False end
    | _ => False
    end.

  Lemma turning_step i w s es : crun es s -> ring_calm W cap es -> turning i s es ->
    exists s' l, cstep_sys s (CTx i w false) = Some (s', l) /\ ring_calm W cap (l ++ es) /\ turning i s' (l ++ es).
  Proof.
    intros Hr HC (Hn & Ho & Hcl & Hpc). pose proof (link_run _ _ _ _ _ _ Hr) as HK.
    assert (Hne : ch_tx s i <> TNone) by (intros E; rewrite E in Hpc; exact Hpc).
    destruct (tx_odd _ _ HK Hne) as [Hev H0].
    pose proof (K_q _ HK i H0) as Kq. pose proof (K_r _ HK i Hev) as Kr.
    cbn [ChannelModel.cstep_sys]. unfold tx_step.
    destruct (ch_tx s i) as [| |[]|[]|[]|[]| | | | | | | | | | | |] eqn:E; try (exfalso; exact Hpc).
    - cbn in Kr. unfold ring_do. cbn [step]. rewrite Kr.
      eexists _, [OnRing (Invoke i OpPush)]. split; [reflexivity|]. split; [apply calm_quiet; auto|].
      unfold turning. cbn. rewrite tset_same, CoreInv.upd_same. auto.
    - assert (Hst : stepping (st_agents (ch_ring s) i) = true).
      { pose proof (no_crash W cap pol false debug Hwf _ _ i Hr HC). destruct (st_agents (ch_ring s) i); try discriminate Hpc; try reflexivity. congruence. }
      destruct (ring_steps W cap pol (ch_ring s) i false Hst) as (r1 & e & Hs). unfold ring_do. rewrite Hs.
      destruct (full_push W cap pol Hwf _ _ _ _ _ _ (crun_ring _ _ _ _ _ _ Hr) HC Ho Hcl Hpc Hs) as [[-> Hu]|[-> Hid]].
      + eexists _, []. split; [reflexivity|]. split; [exact HC|]. unfold turning. cbn. rewrite E. auto.
      + eexists _, [OnRing (RetFull i)]. split; [reflexivity|]. split; [apply calm_quiet; auto|].
        unfold turning. cbn. rewrite tset_same. auto.
    - destruct Kq as [Kp Kph]. unfold queue_do. cbn [qstep_sys]. unfold idle. rewrite Kp. cbn in Kph.
      destruct Kph as [Kph|Kph]; rewrite Kph; eexists _, [OnQueue (ECont i w)]; (split; [reflexivity|]); (split; [exact HC|]);
        unfold turning; cbn; rewrite tset_same, pset_same; auto.
    - unfold queue_do. cbn [qstep_sys]. unfold qstep.
      destruct (q_pc (ch_queue s) i) as [| | | | | | | | |[]|[]|v| | | | | | | | | | | | | | | | | | | | | | | |] eqn:Ep; try (exfalso; exact Hpc).
      + eexists _, [OnQueue (ERet i Notified)]. split; [reflexivity|]. split; [exact HC|].
        unfold turning. cbn. rewrite tset_same. auto.
      + rewrite Hn. cbn [N.eqb Q_WAKING]. eexists _, [OnQueue (EPeek i)]. split; [reflexivity|]. split; [exact HC|].
        unfold turning. cbn. rewrite E, pset_same. auto.
  Qed.

  Lemma turning_spins i w n : forall s es, crun es s -> ring_calm W cap es -> turning i s es -> tx_alone n s es i w = None.
  Proof.
    induction n as [|n IH]; intros s es Hr HC Ht.
    all: assert (Hf : tx_rests (ch_tx s i) = false) by (destruct Ht as (_ & _ & _ & Hp); destruct (ch_tx s i); try (exfalso; exact Hp); reflexivity).
    all: cbn [SpinSpec.tx_alone]; rewrite Hf; try reflexivity.
    destruct (turning_step i w s es Hr HC Ht) as (s' & l & Hs & HC' & Ht'). rewrite Hs.
    apply IH; auto. exact (crun_step _ _ _ _ _ _ _ _ _ Hr Hs).
  Qed.

  Lemma send_spins i w s es : crun es s -> ring_calm W cap es -> ch_tx s i = TCall SQueued \/ ch_tx s i = TAgain SQueued ->
    n_state (q_heap (ch_queue s) i) = Q_WAKING -> occupancy (ring_of es) = cap -> closed_in (ring_of es) = false ->
    forall n, tx_alone n s es i w = None.
  Proof.
    intros Hr HC E Hn Ho Hcl n. apply turning_spins; auto. split; [exact Hn|]. split; [exact Ho|]. split; [exact Hcl|].
    destruct E as [E|E]; rewrite E; exact I.
  Qed.

  (** ** It never sleeps again *)
  (** In the blocking send_ref, start_wait is called until it has returned Wait and never after. *)
  Definition blk (t : tpc) (p : qpc) (ph : phase) : Prop :=
    match t with
    | TAgain SUnq | TPush SUnq | TCall SUnq | TWait SUnq => ph = PFresh
    | TWait SQueued => ph = PWoken -> match p with CLoad _ | SRet Notified => True | _ => False end
    | _ => True
    end.

  Lemma blk_step es s a s' l : crun es s -> memory_ok (l ++ es) -> cstep_sys s a = Some (s', l) ->
    (forall i, i <> 0 -> blk (ch_tx s i) (q_pc (ch_queue s) i) (q_phase (ch_queue s) i)) ->
    (forall i, i <> 0 -> blk (ch_tx s' i) (q_pc (ch_queue s') i) (q_phase (ch_queue s') i)).
  Proof.
    intros Hr Hm Hs IH j Hj. pose proof (link_run _ _ _ _ _ _ Hr) as HK.
    destruct (qrun_inv _ _ _ (crun_queue _ _ _ _ _ _ Hr) (memory_tail _ _ Hm)) as [HI _].
    pose proof (IH j Hj) as Bj. pose proof (I_node _ _ HI j) as Nj. clear IH HI.
    assert (Hwait : forall w spur q' e, a = CTx j w spur -> ch_tx s j = TWait SQueued -> qstep debug (ch_queue s) j spur = Some (q', e) ->
      queue_ret e = None -> q_phase q' j = PWoken -> match q_pc q' j with CLoad _ | SRet Notified => True | _ => False end).
    { intros w spur q' e _ Et Hq He Hph. pose proof (q_own _ _ _ _ _ _ Hq) as Q. rewrite He in Q. destruct Q as [_ Q]. rewrite Q in Hph.
      rewrite Et in Bj. specialize (Bj Hph). rewrite Hph in Nj. unfold qstep in Hq.
      destruct (q_pc (ch_queue s) j) as [| | | | | | | | |[]|[]|v| | | | | | | | | | | | | | | | | | | | | | | |] eqn:Ep; try (exfalso; exact Bj).
      - injection Hq as <- <-. discriminate He.
      - destruct Nj as [_ [Nj _]]. rewrite Nj in Hq. cbn in Hq. injection Hq as <- <-. cbn. now rewrite pset_same. }
    ccases Hs a; frs; odds HK; cbn; try exact Bj.
    all: match goal with
      | |- blk (tset _ ?i _ _) _ _ => here i j
      | H : qstep_sys _ _ (QStep ?i _) = Some _ |- _ => here i j
      | _ => idtac
      end.
    all: try exact Bj.
    all: try (match goal with H : qstep_sys _ _ ?a = Some _ |- _ => destruct (q_others _ _ _ _ _ _ H eq_refl j ltac:(congruence)) as [-> ->]; exact Bj end).
    all: try (match goal with H : ch_tx _ _ = _ |- _ => rewrite H in Bj |- * end; exact Bj).
    all: try exact I.
    all: try (exfalso; now apply Hj).
    all: try (match goal with H : ch_tx _ ?k = _ |- blk (ch_tx _ ?jj) _ _ =>
      destruct (Nat.eq_dec jj k) as [->|?]; [rewrite H; exact I|];
      match goal with H : qstep_sys _ _ ?a = Some _ |- _ => destruct (q_others _ _ _ _ _ _ H eq_refl jj ltac:(congruence)) as [-> ->]; exact Bj end end).
    all: try (match goal with H : ch_tx _ _ = _ |- _ => rewrite H in Bj; rewrite ?H end).
    - destruct (q_new _ _ _ _ _ Heqo) as (_ & _ & _ & _ & ->). reflexivity.
    - destruct st; exact Bj.
    - exact Bj.
    - destruct (q_start _ _ _ _ _ _ Heqo) as (_ & _ & _ & _ & ->). exact Bj.
    - destruct (q_cont _ _ _ _ _ _ Heqo) as (_ & _ & _ & -> & _). intros _. exact I.
    - pose proof (q_own _ _ _ _ _ _ Heqo) as Q. rewrite Heqo0 in Q. destruct Q as (_ & _ & _ & Q). destruct st; try exact I.
      cbn in Bj |- *. rewrite Q, Bj. reflexivity.
    - exfalso. pose proof (q_own _ _ _ _ _ _ Heqo) as Q. rewrite Heqo0 in Q. pose proof (K_q _ HK i Hj) as Kq. rewrite Heqt in Kq.
      destruct Kq as [Kq _]. destruct Q as [_ [[Q _]|[[Q _]|[Q _]]]]; congruence.
    - pose proof (q_own _ _ _ _ _ _ Heqo) as Q. rewrite Heqo0 in Q. destruct Q as [_ Q]. destruct st; try exact I.
      + cbn in Bj |- *. now rewrite Q.
      + exact (Hwait _ _ _ _ eq_refl Heqt Heqo Heqo0).
  Qed.

  Lemma blk_run es s : crun es s -> memory_ok es -> forall i, i <> 0 -> blk (ch_tx s i) (q_pc (ch_queue s) i) (q_phase (ch_queue s) i).
  Proof.
    intros Hr. induction Hr as [|es s a s' l Hr IH Hs]; intros Hm; [intros i _; exact I|].
    exact (blk_step _ _ _ _ _ Hr Hm Hs (IH (memory_tail _ _ Hm))).
  Qed.

  (** How the life of a waiter goes on. *)
  Lemma phase_step q a q' e i : qstep_sys debug q a = Some (q', e) ->
    (exists r, e = Some (ERet i r) /\ q_pc q i = SRet r /\ q_phase q' i = ret_phase (q_phase q i) r) \/
    ((forall r, e <> Some (ERet i r)) /\
     (q_phase q' i = q_phase q i \/ (q_phase q i = PAbsent /\ q_phase q' i = PFresh) \/ q_phase q' i = PGone)).
  Proof.
    intros Hs. assert (Hd : {q_actor a = i} + {q_actor a <> i}) by apply Nat.eq_dec.
    destruct a as [k|k w|k w|k|k|k|k|k|k spur]; cbn [q_actor] in Hd; destruct Hd as [->|Hk];
      try (destruct (q_new _ _ _ _ _ Hs) as (-> & _ & E & _ & E')); try (destruct (q_start _ _ _ _ _ _ Hs) as (-> & _ & _ & _ & E'));
      try (destruct (q_cont _ _ _ _ _ _ Hs) as (-> & _ & _ & _ & E')); try (destruct (q_notify _ _ _ _ _ Hs) as (-> & _ & _ & E'));
      try (destruct (q_close _ _ _ _ _ Hs) as (-> & _ & _ & E')); try (destruct (q_free _ _ _ _ _ Hs) as (-> & _ & _ & E'));
      try (destruct (q_drop _ _ _ _ _ Hs) as (-> & _ & E & _ & E')); try (destruct (q_timeout _ _ _ _ _ Hs) as (-> & _ & _ & _ & E'));
      try (right; split; [intros r; discriminate|]; (right; right; exact E') || (left; congruence) || (right; left; auto; fail); fail).
    all: try (right; split; [intros r; discriminate|]; left; exact (proj2 (q_others _ _ _ _ _ _ Hs eq_refl i ltac:(congruence)))).
    - cbn [qstep_sys] in Hs. pose proof (q_own _ _ _ _ _ _ Hs) as Q. destruct (queue_ret e) as [[r| |]|] eqn:Er.
      + left. exists r. destruct Q as (Q1 & Q2 & _ & Q3). auto.
      + right. split; [intros r ->; discriminate Er|]. destruct Q as [_ [(_ & _ & Q)|[(_ & _ & Q)|(_ & _ & Q)]]]; auto.
      + right. split; [intros r ->; discriminate Er|]. left. apply Q.
      + right. split; [intros r ->; discriminate Er|]. left. apply Q.
    - right. split; [|left; exact (proj2 (q_others _ _ _ _ _ _ Hs eq_refl i ltac:(congruence)))].
      intros r ->. cbn [qstep_sys] in Hs. pose proof (q_own _ _ _ _ _ _ Hs) as Q. cbn [queue_ret] in Q. destruct Q as (_ & Q & _). congruence.
  Qed.

  Definition later (ph : phase) : Prop := ph = PWoken \/ ph = PDone \/ ph = PGone.

  Lemma queue_moved s a s' l : cstep_sys s a = Some (s', l) ->
    (queue_of l = [] /\ ch_queue s' = ch_queue s) \/ exists b e, qstep_sys debug (ch_queue s) b = Some (ch_queue s', e) /\ queue_of l = olist e.
  Proof.
    intros Hs. destruct (moved_step _ _ _ _ _ _ _ _ Hs) as [_ _ E _ _ E'|b r e He _ _ E _ _ E'|b r e He _ _ E _ _ E'|b r e He _ _ E _ _ E'];
      try (left; auto; fail). right. exists b, e. rewrite E. auto.
  Qed.

  Lemma parked_phase es s i : crun es s -> In (ERet i Wait) (queue_of es) ->
    q_phase (ch_queue s) i = PWaiting \/ later (q_phase (ch_queue s) i).
  Proof.
    intros Hr. induction Hr as [|es s a s' l Hr IH Hs]; [intros []|]. rewrite queue_of_app, in_app_iff. intros Hin.
    destruct (queue_moved _ _ _ _ Hs) as [[El ->]|(b & e & He & El)]; rewrite El in Hin; [destruct Hin as [[]|Hin]; auto|].
    unfold later in *.
    destruct (phase_step _ _ _ _ i He) as [(r & -> & _ & Ep)|[Hne Ep]]; rewrite Ep || idtac.
    - destruct r; cbn [ret_phase]; auto. destruct Hin as [[Hin|[]]|Hin]; [discriminate|].
      destruct (IH Hin) as [->|[->|[->| ->]]]; auto.
    - assert (Hin' : In (ERet i Wait) (queue_of es)).
      { destruct Hin as [Hin|Hin]; [|exact Hin]. destruct e as [e|]; [|destruct Hin]. destruct Hin as [->|[]]. now destruct (Hne Wait). }
      specialize (IH Hin'). destruct Ep as [->|[[Ea _]| ->]]; auto. rewrite Ea in IH. destruct IH as [IH|[IH|[IH|IH]]]; discriminate IH.
  Qed.

  Lemma later_step es s a s' l i : crun es s -> memory_ok es -> cstep_sys s a = Some (s', l) -> i <> 0 ->
    later (q_phase (ch_queue s) i) -> later (q_phase (ch_queue s') i) /\ ~ In (ERet i Wait) (queue_of l).
  Proof.
    intros Hr Hm Hs H0 HL. destruct (queue_moved _ _ _ _ Hs) as [[El ->]|(b & e & He & El)]; rewrite El; [split; [exact HL|intros []]|].
    pose proof (K_q _ (link_run _ _ _ _ _ _ Hr) i H0) as Kq. pose proof (blk_run _ _ Hr Hm i H0) as Bi.
    unfold later in *.
    destruct (phase_step _ _ _ _ i He) as [(r & -> & Hp & Ep)|[Hne Ep]].
    - rewrite Ep. rewrite Hp in Kq, Bi. cbn [olist In].
      destruct (ch_tx s i) as [| |[]|[]|[]|[]| | | | | | | | | | | |]; cbn in Kq, Bi; try (destruct Kq; discriminate); try discriminate Kq; destruct Kq as [Kq1 Kq2]; try discriminate Kq1.
      all: try (destruct Kq2 as [Kq2|Kq2]); try (exfalso; exact Kq2); rewrite Kq2 in *; destruct HL as [HL|[HL|HL]]; try discriminate.
      specialize (Bi eq_refl). destruct r; try (exfalso; exact Bi). split; [auto|]. intros [H|[]]. discriminate.
    - split; [destruct Ep as [->|[[Ea _]| ->]]; auto; rewrite Ea in HL; destruct HL as [HL|[HL|HL]]; discriminate HL|].
      destruct e as [e|]; [|intros []]. intros [->|[]]. now apply (Hne Wait).
  Qed.

  (** Once told Notified after Wait, a waiter is never told Wait again. *)
  Lemma awake es s i : crun es s -> memory_ok es -> i <> 0 -> forall es2 es1, queue_of es = es2 ++ ERet i Notified :: es1 -> In (ERet i Wait) es1 ->
    later (q_phase (ch_queue s) i) /\ ~ In (ERet i Wait) es2.
  Proof.
    intros Hr. induction Hr as [|es s a s' l Hr IH Hs]; intros Hm H0 es2 es1 Hq Hin; [destruct es2; discriminate Hq|].
    specialize (IH (memory_tail _ _ Hm) H0). rewrite queue_of_app in Hq.
    destruct (queue_moved _ _ _ _ Hs) as [[El ->]|(b & e & He & El)]; rewrite El in Hq; [exact (IH _ _ Hq Hin)|].
    destruct e as [e|]; cbn [olist app] in Hq.
    - destruct es2 as [|x es2]; cbn [app] in Hq; injection Hq as -> Hq.
      + subst es1. split; [|intros []]. unfold later.
        destruct (phase_step _ _ _ _ i He) as [(r & Er & _ & Ep)|[Hne _]]; [|now destruct (Hne Notified)]. injection Er as <-. rewrite Ep.
        destruct (parked_phase _ _ _ Hr Hin) as [->|[->|[->| ->]]]; cbn; auto.
      + destruct (IH _ _ Hq Hin) as [HL Hno]. destruct (later_step _ _ _ _ _ _ Hr (memory_tail _ _ Hm) Hs H0 HL) as [HL' Hl].
        split; [exact HL'|]. rewrite El in Hl. intros [->|H]; [apply Hl; now left|exact (Hno H)].
    - destruct (IH _ _ Hq Hin) as [HL Hno]. destruct (later_step _ _ _ _ _ _ Hr (memory_tail _ _ Hm) Hs H0 HL) as [HL' _]. auto.
  Qed.

  Lemma never_again es s i : crun es s -> memory_ok es -> forall es2 es1, queue_of es = es2 ++ ERet i Notified :: es1 -> In (ERet i Wait) es1 ->
    ~ In (ERet i Wait) es2.
  Proof.
    intros Hr Hm es2 es1 Hq Hin. destruct (Nat.eq_dec i 0) as [->|H0]; [|exact (proj2 (awake _ _ _ Hr Hm H0 _ _ Hq Hin))].
    exfalso. pose proof (proj2 (K_q0 _ (link_run _ _ _ _ _ _ Hr))) as K0.
    destruct (parked_phase _ _ 0 Hr) as [H|[H|[H|H]]]; [rewrite Hq; apply in_or_app; right; right; exact Hin|..]; congruence.
  Qed.
End Spin.
