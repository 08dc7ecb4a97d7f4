(** A send that runs alone. *)
From Coq Require Import List Bool Arith NArith Lia.
From Coq Require Import ZifyN ZifyNat ZifyBool.
From Verif Require CoreInv CoreStep RingFacts.
From Verif Require Import CoreArith RingSpec SoloSpec SeqModel Solo SoloFacts.
From Verif Require Import QueueSpec CoreModel WaitCellModel WaitList WaitQueueModel WaitQueueSpec WaitQueueFacts WaitQueueWake.
From Verif Require Import ChannelModel ChannelSpec ChannelFacts ChannelLink ChannelEvents ChannelRing ChannelInv ChannelSend ChannelProgress ChannelPoll SpinSpec ChannelSpin.
From Verif Require Import History HistoryFacts.
Import ListNotations.

Section Alone.
  Context {T : Type}.
  Variables (W : N) (cap : nat) (pol : policy T) (async debug : bool).
  Hypothesis Hwf : wf W cap.
  Notation P := (core_new W (N.of_nat cap)).
  Notation cstep_sys := (@cstep_sys T P pol async debug).
  Notation crun := (@crun T P pol async debug).
  Notation tx_alone := (tx_alone P pol async debug).
  Notation chan := (@chan T).
  Local Arguments drop_id : simpl never.

  Variables (i : nat) (w : waker).

  Definition comes (k : nat) (s : chan) (es : list (cevent T)) : Prop := exists s' es', tx_alone k s es i w = Some (s', es').
  Lemma comes_mono k : forall k' s es, k <= k' -> comes k s es -> comes k' s es.
  Proof.
    induction k as [|k IH]; intros [|k'] s es Hle (s' & es' & H); unfold comes in *; cbn [SpinSpec.tx_alone] in *; try lia; eauto.
    - destruct (tx_rests (ch_tx s i)); [eauto|discriminate].
    - destruct (tx_rests (ch_tx s i)); [eauto|]. destruct (cstep_sys s (CTx i w false)) as [[s1 l]|]; [|discriminate].
      apply (IH k'); [lia|]. eauto.
  Qed.
  Lemma comes_now k s es : tx_rests (ch_tx s i) = true -> comes k s es.
  Proof. intros H. exists s, es. destruct k; cbn [SpinSpec.tx_alone]; now rewrite H. Qed.
  Lemma comes_step k s es s' l : cstep_sys s (CTx i w false) = Some (s', l) -> comes k s' (l ++ es) -> comes (S k) s es.
  Proof.
    intros Hs (s2 & es2 & H). unfold comes. cbn [SpinSpec.tx_alone]. destruct (tx_rests (ch_tx s i)); [eauto|]. rewrite Hs. eauto.
  Qed.

  (** ** push_ref *)
  Lemma push_own r r' e : step P pol r (AStep i false) = Some (r', e) -> in_push (st_agents r i) = true ->
    (forall j, j <> i -> st_agents r' j = st_agents r j) /\
    ((in_push (st_agents r' i) = true /\ e = None /\ st_core r' = st_core r) \/
     (exists t, st_agents r' i = PInit t /\ e = Some (Reserve i)) \/
     (st_agents r' i = Idle /\ e = Some (RetFull i) /\ st_core r' = st_core r) \/
     (st_agents r' i = Idle /\ e = Some (RetPushClosed i)) \/
     (push_ret e = Some PushOk) \/
     (e = Some (UB i) /\ st_agents r' i = Crashed)).
  Proof.
    intros Hs Hin. cbn [step] in Hs. destruct (stepping (st_agents r i)) eqn:Est; [|discriminate].
    destruct (st_agents r i) eqn:E; try discriminate Hin; unfold cstep, push_top, idx_gen in Hs;
      repeat match type of Hs with
      | context [match ?x with _ => _ end] =>
          lazymatch x with context [match _ with _ => _ end] => fail | _ => destruct x eqn:? end
      end; try injection Hs as <- <-;
      repeat match goal with H : (_, _) = (_, _) |- _ => injection H; clear H; intros; subst end; cbn [st_agents st_core];
      (split; [intros j Hj; unfold upd; now rewrite (proj2 (Nat.eqb_neq j i) Hj)|]);
      unfold upd; rewrite ?Nat.eqb_refl; eauto 10.
  Qed.

  Lemma in_push_now es s st : crun es s -> ring_calm W cap es -> ch_tx s i = TPush st -> in_push (st_agents (ch_ring s) i) = true.
  Proof.
    intros Hr HC E. pose proof (link_run _ _ _ _ _ _ Hr) as HK. destruct (tx_odd s i HK ltac:(rewrite E; discriminate)) as [Hev _].
    pose proof (K_r _ HK i Hev) as Hp. rewrite E in Hp. cbn in Hp.
    pose proof (no_crash W cap pol async debug Hwf _ _ i Hr HC) as Hn.
    destruct (st_agents (ch_ring s) i); try discriminate Hp; try reflexivity. congruence.
  Qed.

  (** Where Full leads. *)
  Definition full_pc (st : sstage) : tpc :=
    match st with STry => TEnd | SFast => TNew | SUnq => TCall SUnq | SQueued => if async then TAgain SUnq else TCall SQueued end.
  (** What holds when push_ref has returned Full in state [s'], having been called in [s]. *)
  Definition filled (st : sstage) (m : nat) (q : qsys) (cl : bool) : Prop :=
    forall s' es', crun es' s' -> ring_calm W cap es' -> ch_tx s' i = full_pc st -> ch_queue s' = q ->
      tail_unoccupied W cap (ch_ring s') i -> occupancy (ring_of es') = cap -> closed_in (ring_of es') = cl -> comes m s' es'.

  Lemma push_step s st r1 e : ch_tx s i = TPush st -> step P pol (ch_ring s) (AStep i false) = Some (r1, e) ->
    cstep_sys s (CTx i w false) = Some (
      match push_ret e with
      | Some PushFull => let '(s2, l) := after_full async (on_ring s r1) i st in (s2, l ++ map OnRing (olist e))
      | Some PushClosed => (finish (on_ring s r1) i TEnd, [Sent i SentClosed] ++ map OnRing (olist e))
      | Some PushOk => (on_tx (on_ring s r1) i THold, [Sent i SentOk] ++ map OnRing (olist e))
      | None => (on_ring s r1, map OnRing (olist e))
      end).
  Proof.
    intros E Hs. cbn [ChannelModel.cstep_sys]. unfold tx_step. rewrite E. unfold ring_do. rewrite Hs.
    destruct (push_ret e) as [[]|]; try reflexivity. destruct (after_full async (on_ring s r1) i st). reflexivity.
  Qed.

  Lemma push_last n s es st t r' res' : ch_tx s i = TPush st -> st_agents (ch_ring s) i = PInit t ->
    call P pol n (ch_ring s) (ring_of es) i = Some (r', res') -> push_ok (st_agents r' i) -> comes n s es.
  Proof.
    intros E Ea Hc Hok. destruct n as [|n]; cbn [call] in Hc; rewrite Ea in Hc; cbn [stepping] in Hc; [discriminate|].
    destruct (ring_steps W cap pol (ch_ring s) i false ltac:(now rewrite Ea)) as (r1 & e & Hs). rewrite Hs in Hc.
    pose proof (push_step _ _ _ _ E Hs) as Hcs.
    destruct (r_own _ _ _ _ _ _ _ Hs) as (_ & Hp & _). specialize (Hp ltac:(now rewrite Ea)).
    assert (He : push_ret e = Some PushOk \/ st_agents r1 i = Crashed).
    { cbn [step] in Hs. rewrite Ea in Hs. cbn [stepping] in Hs. unfold cstep, idx_gen in Hs.
      repeat match type of Hs with
      | context [match ?x with _ => _ end] =>
          lazymatch x with context [match _ with _ => _ end] => fail | _ => destruct x eqn:? end
      end; try injection Hs as <- <-;
      repeat match goal with H : (_, _) = (_, _) |- _ => injection H; clear H; intros; subst end; cbn [st_agents push_ret];
      unfold upd; rewrite ?Nat.eqb_refl; auto. }
    destruct He as [He|He].
    - rewrite He in Hcs. apply (comes_step _ _ _ _ _ Hcs). apply comes_now. cbn. now rewrite tset_same.
    - exfalso. destruct n; cbn [call] in Hc; rewrite He in Hc; cbn [stepping] in Hc; injection Hc as <- _; rewrite He in Hok;
        destruct Hok as [Hok|[x Hok]]; discriminate.
  Qed.

  Lemma push_phase m st n : forall s es r' res', crun es s -> ring_calm W cap es -> ch_tx s i = TPush st -> tail_unoccupied W cap (ch_ring s) i ->
    call P pol n (ch_ring s) (ring_of es) i = Some (r', res') -> push_ok (st_agents r' i) ->
    (occupancy (ring_of es) = cap -> filled st m (ch_queue s) (closed_in (ring_of es))) -> comes (n + m) s es.
  Proof.
    induction n as [|n IH]; intros s es r' res' Hr HC E Hu Hc Hok Hk;
      pose proof (in_push_now _ _ _ Hr HC E) as Hin;
      assert (Hst : stepping (st_agents (ch_ring s) i) = true) by (destruct (st_agents (ch_ring s) i); try discriminate Hin; reflexivity);
      cbn [call] in Hc; rewrite Hst in Hc; [discriminate|].
    destruct (ring_steps W cap pol (ch_ring s) i false Hst) as (r1 & e & Hs). rewrite Hs in Hc.
    destruct (push_own _ _ _ Hs Hin) as [Ho Hcase]. pose proof (push_step _ _ _ _ E Hs) as Hcs.
    destruct Hcase as [(Hin' & -> & Hco)|[(t & Ht & ->)|[(Hid & -> & Hco)|[(Hid & ->)|[He|[-> Hcr]]]]]]; cbn [plus].
    - apply (comes_step _ _ _ _ _ Hcs). cbn [map olist app push_ret] in *.
      apply (IH _ _ r' res' (crun_step _ _ _ _ _ _ _ _ _ Hr Hcs) HC E); auto.
      intros j Hj. cbn [ch_ring on_ring]. rewrite Hco, (Ho j Hj). now apply Hu.
    - apply (comes_step _ _ _ _ _ Hcs). apply (comes_mono n); [lia|]. cbn [push_ret map olist app] in *.
      exact (push_last n (on_ring s r1) (OnRing (Reserve i) :: es) st t r' res' E Ht Hc Hok).
    - cbn [push_ret] in Hcs. unfold after_full in Hcs.
      assert (HC' : forall l, ring_of l = [] -> ring_calm W cap ((l ++ map OnRing (olist (Some (RetFull i)))) ++ es)).
      { intros l Hl. unfold ring_calm. rewrite !ring_of_app, Hl. apply (calm_quiet W cap Hwf (RetFull i) (ring_of es)); auto. }
      assert (Hocc : occupancy (ring_of es) = cap) by exact (full_now W cap pol Hwf _ _ _ _ _ (crun_ring _ _ _ _ _ _ Hr) HC Hs).
      assert (Hu' : tail_unoccupied W cap r1 i) by (intros j Hj; rewrite Hco, (Ho j Hj); now apply Hu).
      destruct st; apply (comes_step _ _ _ _ _ Hcs); apply (comes_mono m); try lia;
        (apply (Hk Hocc); [exact (crun_step _ _ _ _ _ _ _ _ _ Hr Hcs)|apply HC'; reflexivity|cbn; now rewrite tset_same|reflexivity|exact Hu'|exact Hocc|reflexivity]).
    - cbn [push_ret] in Hcs. apply (comes_step _ _ _ _ _ Hcs). apply comes_now. cbn. now rewrite tset_same.
    - rewrite He in Hcs. apply (comes_step _ _ _ _ _ Hcs). apply comes_now. cbn. now rewrite tset_same.
    - exfalso. destruct n; cbn [call] in Hc; rewrite Hcr in Hc; cbn [stepping] in Hc; injection Hc as <- _; rewrite Hcr in Hok;
        destruct Hok as [Hok|[x Hok]]; discriminate.
  Qed.

  Lemma at_push m st s es : crun es s -> ring_calm W cap es -> ch_tx s i = TPush st -> tail_unoccupied W cap (ch_ring s) i ->
    (occupancy (ring_of es) = cap -> filled st m (ch_queue s) (closed_in (ring_of es))) -> comes (6 + m) s es.
  Proof.
    intros Hr HC E Hu Hk.
    destruct (ret_push W cap pol Hwf (ch_ring s) (ring_of es) i (crun_ring _ _ _ _ _ _ Hr) HC (in_push_now _ _ _ Hr HC E) Hu) as (r' & res' & Hc & Hok).
    exact (push_phase m st 6 s es r' res' Hr HC E Hu Hc Hok Hk).
  Qed.
  Lemma at_try m st s es : crun es s -> ring_calm W cap es -> ch_tx s i = TAgain st -> tail_unoccupied W cap (ch_ring s) i ->
    (occupancy (ring_of es) = cap -> filled st m (ch_queue s) (closed_in (ring_of es))) -> comes (7 + m) s es.
  Proof.
    intros Hr HC E Hu Hk. pose proof (link_run _ _ _ _ _ _ Hr) as HK. destruct (tx_odd s i HK ltac:(rewrite E; discriminate)) as [Hev _].
    pose proof (K_r _ HK i Hev) as Kr. rewrite E in Kr. cbn in Kr.
    assert (Hs : cstep_sys s (CTx i w false) = Some (on_tx (on_ring s (mkS (st_core (ch_ring s)) (upd (st_agents (ch_ring s)) i PStart))) i (TPush st), [OnRing (Invoke i OpPush)])).
    { cbn [ChannelModel.cstep_sys]. unfold tx_step. rewrite E. unfold ring_do. cbn [step]. rewrite Kr. reflexivity. }
    cbn [plus]. apply (comes_step _ _ _ _ _ Hs). apply (at_push m st).
    - exact (crun_step _ _ _ _ _ _ _ _ _ Hr Hs).
    - exact (calm_quiet W cap Hwf (Invoke i OpPush) (ring_of es) HC eq_refl eq_refl).
    - cbn. apply tset_same.
    - intros j Hj. cbn. rewrite CoreInv.upd_other by exact Hj. now apply Hu.
    - exact Hk.
  Qed.

  (** ** start_wait and continue_wait *)
  (** The mutex is free, or held by this very call. *)
  Definition lock_free (q : qsys) : Prop := q_lock q = None \/ (q_lock q = Some i /\ holds (q_pc q i) = true).
  (** How many steps are left. *)
  Definition qrank (st : N) (p : qpc) : nat :=
    match p with
    | SRet _ => 1 | SUnlock _ => 2
    | SEnq _ => 3 | SSwap _ => 4 | SNode _ => 5
    | SCasEmpty _ => if (st =? Q_EMPTY)%N then 6 else 8
    | SCasWaking _ => if (st =? Q_WAKING)%N then 3 else 8
    | SLoad _ => 9 | SLock _ => 10 | SCas _ => 11
    | CUpd _ => 3 | CLoad2 _ => 4 | CLock _ => 5 | CLoad _ => 6
    | _ => 0
    end.
  Definition told (p : qpc) : bool := match p with SUnlock Notified | SRet Notified => true | _ => false end.
  Definition conts (p : qpc) : bool := match p with CLoad _ | CLock _ | CLoad2 _ => true | _ => false end.
  Definition starts (p : qpc) : bool :=
    match p with SCas _ | SLock _ | SLoad _ | SCasEmpty _ | SCasWaking _ => true | _ => false end.

  Lemma q_go q : kind (q_pc q i) = KCall -> lock_free q ->
    exists q' e, qstep debug q i false = Some (q', e) /\
      (queue_ret e = Some Failed \/ (exists r, q_pc q i = SRet r /\ queue_ret e = Some (Got r) /\ q_state q' = q_state q) \/
       (queue_ret e = None /\ kind (q_pc q' i) = KCall /\ qrank (q_state q') (q_pc q' i) < qrank (q_state q) (q_pc q i) /\
        (told (q_pc q' i) = true ->
           (told (q_pc q i) = true /\ q_state q' = q_state q) \/
           (starts (q_pc q i) = true /\ q_state q = Q_WAKING /\ q_state q' = Q_EMPTY) \/
           (conts (q_pc q i) = true /\ n_state (q_heap q i) = Q_WAKING)) /\
        (conts (q_pc q' i) = true -> conts (q_pc q i) = true /\ n_state (q_heap q' i) = n_state (q_heap q i)) /\
        (starts (q_pc q' i) = true -> starts (q_pc q i) = true) /\
        (q_state q' = Q_WAKING -> q_state q = Q_WAKING))) /\
      (queue_ret e <> Some Failed -> lock_free q').
  Proof.
    intros Hk HL. unfold lock_free in HL.
    destruct (qstep debug q i false) as [[q' e]|] eqn:Hs.
    - exists q', e. split; [reflexivity|]. qcases Hs E q i; try discriminate Hk.
      all: cbn [queue_ret with_phase with_pc with_state with_mem with_lock q_pc q_state q_heap q_lock]; rewrite ?pset_same, ?E; cbn [holds] in HL.
      all: repeat match goal with
        | H : (_ && _)%bool = true |- _ => apply andb_true_iff in H; destruct H
        | H : (_ =? _)%N = true |- _ => apply N.eqb_eq in H
        end.
      all: (split; [|intros Hnf; try (now destruct Hnf); unfold lock_free; cbn [with_phase with_pc with_state with_mem with_lock q_pc q_lock]; rewrite ?pset_same; cbn [holds]; try (left; reflexivity); try (destruct HL as [HL|[HL ?]]; [now left|]; try discriminate; right; auto)]).
      all: try (left; reflexivity).
      all: try (right; left; eexists; repeat split; fail).
      all: try (right; right; unfold qrank, told, conts, starts; repeat match goal with H : ?x = _ |- context [?x] => rewrite H end; cbn [kind N.eqb];
        repeat split; intros; try discriminate; auto; lia).
      all: try (right; auto; fail).
      all: right; right; unfold qrank, told, conts, starts; repeat match goal with H : q_state _ = _ |- _ => rewrite H end; cbn;
        repeat split; intros; try discriminate; auto; try lia.
    - exfalso. unfold qstep in Hs. destruct (q_pc q i) eqn:E; try discriminate Hk; cbn [holds] in HL;
        try (destruct HL as [HL|[_ HL]]; [rewrite HL in Hs|discriminate HL]);
        repeat match type of Hs with
        | context [if ?b then _ else _] => destruct b
        | context [let '(_, _) := ?b in _] => destruct b
        end; discriminate Hs.
  Qed.

  Definition after_q (s : chan) (st : sstage) (e : option qevent) : chan * list (cevent T) :=
    match queue_ret e with
    | Some (Got r) => after_wait s i st r
    | Some Failed => (finish s i TDead, [])
    | _ => (s, [])
    end.
  Lemma wait_one s st q1 e : ch_tx s i = TWait st -> qstep debug (ch_queue s) i false = Some (q1, e) ->
    cstep_sys s (CTx i w false) = Some (let '(s2, l) := after_q (on_queue s q1) st e in (s2, l ++ map OnQueue (olist e))).
  Proof. intros E Hs. cbn [ChannelModel.cstep_sys]. unfold tx_step. rewrite E. unfold queue_do. cbn [qstep_sys]. rewrite Hs. unfold after_q. destruct (match queue_ret e with Some _ => _ | None => _ end). reflexivity. Qed.

  (** What holds when start_wait / continue_wait has returned Notified, having been in [q]. *)
  Definition heard (q q' : qsys) : Prop :=
    (told (q_pc q i) = true /\ q_state q' = q_state q) \/
    (starts (q_pc q i) = true /\ q_state q = Q_WAKING /\ q_state q' = Q_EMPTY) \/
    (conts (q_pc q i) = true /\ n_state (q_heap q i) = Q_WAKING).
  Definition notified (st : sstage) (m : nat) (q : qsys) (r : @state T) (ev : list (event T)) : Prop :=
    forall s' es', crun es' s' -> ch_tx s' i = TAgain st -> ch_ring s' = r -> ring_of es' = ev -> q_lock (ch_queue s') = None ->
      heard q (ch_queue s') -> comes m s' es'.

  Lemma wait_phase m st k : forall s es, crun es s -> ch_tx s i = TWait st -> lock_free (ch_queue s) ->
    qrank (q_state (ch_queue s)) (q_pc (ch_queue s) i) <= k ->
    notified st m (ch_queue s) (ch_ring s) (ring_of es) -> comes (k + m) s es.
  Proof.
    induction k as [|k IH]; intros s es Hr E HL Hrk Hn;
      (assert (Hk : kind (q_pc (ch_queue s) i) = KCall);
       [pose proof (link_run _ _ _ _ _ _ Hr) as HK; destruct (tx_odd s i HK ltac:(rewrite E; discriminate)) as [_ H0];
        pose proof (K_q _ HK i H0) as Kq; rewrite E in Kq; exact (proj1 Kq)|]);
      destruct (q_go _ Hk HL) as (q1 & e & Hs & Hcase & HL').
    { exfalso. destruct Hcase as [He|[(r & Er & _)|(_ & _ & H & _)]]; [|rewrite Er in Hrk; cbn in Hrk; lia|lia].
      destruct (q_pc (ch_queue s) i); cbn in Hrk; try discriminate Hk; try lia;
        match type of Hrk with context [if ?b then _ else _] => destruct b end; lia. }
    pose proof (wait_one _ _ _ _ E Hs) as Hcs. unfold after_q in Hcs.
    destruct Hcase as [He|[(r & Er & He & Est)|(He & Hk' & Hlt & Htold & Hcont & Hstart & Hst)]]; rewrite He in Hcs; cbn [plus].
    - apply (comes_step _ _ _ _ _ Hcs). apply comes_now. cbn. now rewrite tset_same.
    - destruct r; cbn [after_wait] in Hcs; apply (comes_step _ _ _ _ _ Hcs); try (apply comes_now; cbn; now rewrite tset_same).
      apply (comes_mono m); [lia|]. apply Hn; [exact (crun_step _ _ _ _ _ _ _ _ _ Hr Hcs)|..]; auto.
      + cbn. apply tset_same.
      + rewrite !ring_of_app. destruct e; reflexivity.
      + cbn. destruct (HL' ltac:(congruence)) as [H|[_ H]]; [exact H|].
        pose proof (q_own _ _ _ _ _ _ Hs) as Q. rewrite He in Q. destruct Q as (_ & _ & Q & _). rewrite Q in H. discriminate.
      + left. cbn. rewrite Er. auto.
    - apply (comes_step _ _ _ _ _ Hcs). apply IH; [exact (crun_step _ _ _ _ _ _ _ _ _ Hr Hcs)|..]; auto.
      + apply HL'. congruence.
      + cbn. lia.
      + cbn [ch_ring ch_queue on_queue]. rewrite ring_of_app.
        replace (ring_of ([] ++ map OnQueue (olist e))) with (@nil (event T)) by (destruct e; reflexivity). cbn [app].
        intros s' es' H1 H2 H3 H4 H5 H6. apply Hn; auto. unfold heard in *.
        destruct H6 as [[H6 H7]|[(H6 & H7 & H8)|[H6 H7]]].
        * destruct (Htold H6) as [[H8 H9]|[(H8 & H9 & H10)|H8]]; [left|right; left|right; right]; try tauto; try (split; congruence). repeat split; congruence.
        * right. left. auto.
        * right. right. destruct (Hcont H6) as [H8 H9]. split; congruence.
  Qed.

  (** ** The loops *)
  Lemma lock_own s es : crun es s -> memory_ok es -> q_lock (ch_queue s) = None \/ q_lock (ch_queue s) = Some i -> lock_free (ch_queue s).
  Proof.
    intros Hr Hm [H|H]; [now left|right]. split; [exact H|].
    destruct (qrun_inv _ _ _ (crun_queue _ _ _ _ _ _ Hr) Hm) as [HI _]. now apply (I_lock _ _ HI).
  Qed.

  (** TCall: the call of start_wait or continue_wait. *)
  Definition call_pc (st : sstage) : qpc := match st with SQueued => CLoad w | _ => SCas w end.
  Lemma at_call m st s es : crun es s -> ch_tx s i = TCall st -> q_lock (ch_queue s) = None ->
    notified st m (with_pc (ch_queue s) i (call_pc st)) (ch_ring s) (ring_of es) -> comes (12 + m) s es.
  Proof.
    intros Hr E HL Hn. pose proof (link_run _ _ _ _ _ _ Hr) as HK. destruct (tx_odd s i HK ltac:(rewrite E; discriminate)) as [_ H0].
    pose proof (K_q _ HK i H0) as Kq. rewrite E in Kq. cbn in Kq. destruct Kq as [Kp Kc].
    assert (Hs : exists e, cstep_sys s (CTx i w false) = Some (on_tx (on_queue s (with_pc (ch_queue s) i (call_pc st))) i (TWait st), [OnQueue e])).
    { cbn [ChannelModel.cstep_sys]. unfold tx_step. rewrite E. unfold queue_do.
      destruct st; cbn [qstep_sys]; unfold idle; rewrite Kp; cbn in Kc; try (destruct Kc);
        repeat match goal with H : q_phase _ _ = _ |- _ => rewrite H end; eexists; reflexivity. }
    destruct Hs as [e Hs]. cbn [plus]. apply (comes_step _ _ _ _ _ Hs). apply (wait_phase m st 11).
    - exact (crun_step _ _ _ _ _ _ _ _ _ Hr Hs).
    - cbn. apply tset_same.
    - left. exact HL.
    - cbn [ch_queue on_tx on_queue with_pc q_pc]. rewrite pset_same. destruct st; cbn; lia.
    - exact Hn.
  Qed.

  Definition clear (s : chan) (es : list (cevent T)) : Prop :=
    crun es s /\ ring_calm W cap es /\ tail_unoccupied W cap (ch_ring s) i /\ q_lock (ch_queue s) = None.

  Lemma notify_with st m q r ev : calm (slack W cap) ev -> tail_unoccupied W cap r i ->
    (forall s' es', clear s' es' -> ch_tx s' i = TAgain st -> ring_of es' = ev -> heard q (ch_queue s') -> comes m s' es') -> notified st m q r ev.
  Proof. intros HC Hu H s' es' H1 H2 H3 H4 H5 H6. apply H; auto. repeat split; auto; [unfold ring_calm; now rewrite H4|now rewrite H3]. Qed.
  Lemma fill_with st m q cl : q_lock q = None ->
    (forall s' es', clear s' es' -> ch_tx s' i = full_pc st -> ch_queue s' = q -> closed_in (ring_of es') = cl -> comes m s' es') -> filled st m q cl.
  Proof. intros HL H s' es' H1 H2 H3 H4 H5 H6 H7. apply H; auto. repeat split; auto. now rewrite H4. Qed.

  (** A start_wait that cannot be told Notified. *)
  Lemma unq_call0 s es : clear s es -> ch_tx s i = TCall SUnq -> q_state (ch_queue s) <> Q_WAKING -> comes 12 s es.
  Proof.
    intros (Hr & HC & Hu & HL) E Hq. apply (at_call 0 SUnq s es Hr E HL). apply notify_with; auto.
    intros s' es' _ _ _ [[H _]|[(_ & H & _)|[H _]]]; cbn [with_pc q_pc call_pc q_state] in H; try rewrite pset_same in H; try discriminate H; contradiction.
  Qed.
  Lemma unq_again0 s es : clear s es -> ch_tx s i = TAgain SUnq -> q_state (ch_queue s) <> Q_WAKING -> comes 19 s es.
  Proof.
    intros (Hr & HC & Hu & HL) E Hq. apply (at_try 12 SUnq s es Hr HC E Hu). intros _. apply fill_with; auto.
    intros s' es' Hc E' Eq _. apply unq_call0; auto. now rewrite Eq.
  Qed.
  Lemma unq_call s es : clear s es -> ch_tx s i = TCall SUnq -> comes 31 s es.
  Proof.
    intros (Hr & HC & Hu & HL) E. apply (at_call 19 SUnq s es Hr E HL). apply notify_with; auto.
    intros s' es' Hc E' _ [[H _]|[(_ & _ & H)|[H _]]]; cbn [with_pc q_pc call_pc q_state] in H; try rewrite pset_same in H; try discriminate H.
    apply unq_again0; auto. rewrite H. discriminate.
  Qed.
  Lemma unq_again s es : clear s es -> ch_tx s i = TAgain SUnq -> comes 38 s es.
  Proof.
    intros (Hr & HC & Hu & HL) E. apply (at_try 31 SUnq s es Hr HC E Hu). intros _. apply fill_with; auto.
    intros s' es' Hc E' _ _. now apply unq_call.
  Qed.
  Lemma unq_push s es : clear s es -> ch_tx s i = TPush SUnq -> comes 37 s es.
  Proof.
    intros (Hr & HC & Hu & HL) E. apply (at_push 31 SUnq s es Hr HC E Hu). intros _. apply fill_with; auto.
    intros s' es' Hc E' _ _. now apply unq_call.
  Qed.
  Lemma wait_any m st s es : crun es s -> ring_calm W cap es -> tail_unoccupied W cap (ch_ring s) i -> lock_free (ch_queue s) -> ch_tx s i = TWait st ->
    (forall s' es', clear s' es' -> ch_tx s' i = TAgain st -> ring_of es' = ring_of es -> heard (ch_queue s) (ch_queue s') -> comes m s' es') -> comes (11 + m) s es.
  Proof.
    intros Hr HC Hu HL E H. apply (wait_phase m st 11 s es Hr E HL).
    - destruct (q_pc (ch_queue s) i); cbn; try lia; match goal with |- context [if ?b then _ else _] => destruct b end; lia.
    - apply notify_with; auto.
  Qed.
  Lemma new_step s es : clear s es -> ch_tx s i = TNew -> comes 39 s es.
  Proof.
    intros (Hr & HC & Hu & HL) E. pose proof (link_run _ _ _ _ _ _ Hr) as HK. destruct (tx_odd s i HK ltac:(rewrite E; discriminate)) as [_ H0].
    pose proof (K_q _ HK i H0) as Kq. rewrite E in Kq. cbn in Kq. destruct Kq as [Kp Kc].
    assert (Hs : exists q e, q_lock q = None /\ cstep_sys s (CTx i w false) = Some (on_tx (on_queue s q) i (if async then TAgain SUnq else TCall SUnq), [OnQueue e])).
    { cbn [ChannelModel.cstep_sys]. unfold tx_step. rewrite E. unfold queue_do. cbn [qstep_sys]. unfold idle. rewrite Kp, Kc.
      do 2 eexists. split; [|reflexivity]. exact HL. }
    destruct Hs as (q & e & HL' & Hs). apply (comes_step _ _ _ _ _ Hs).
    assert (Hc : clear (on_tx (on_queue s q) i (if async then TAgain SUnq else TCall SUnq)) ([OnQueue e] ++ es)).
    { split; [exact (crun_step _ _ _ _ _ _ _ _ _ Hr Hs)|]. repeat split; auto. }
    destruct async eqn:Ea.
    - apply unq_again; auto. cbn. apply tset_same.
    - apply (comes_mono 31); [lia|]. apply unq_call; auto. cbn. apply tset_same.
  Qed.

  (** The asynchronous send: Full after Notified makes it forget that it was queued. *)
  Lemma async_again s es : async = true -> clear s es -> ch_tx s i = TAgain SQueued -> comes 45 s es.
  Proof.
    intros Ha (Hr & HC & Hu & HL) E. apply (at_try 38 SQueued s es Hr HC E Hu). intros _. apply fill_with; auto.
    intros s' es' Hc E' _ _. apply unq_again; auto. unfold full_pc in E'. rewrite E', Ha. reflexivity.
  Qed.

  (** The blocking send. *)
  Definition stuck (s : chan) (es : list (cevent T)) : Prop :=
    n_state (q_heap (ch_queue s) i) = Q_WAKING /\ occupancy (ring_of es) = cap /\ closed_in (ring_of es) = false.

  Lemma again_room s es : occupancy (ring_of es) <> cap -> clear s es -> ch_tx s i = TAgain SQueued -> comes 7 s es.
  Proof. intros Ho (Hr & HC & Hu & HL) E. apply (at_try 0 SQueued s es Hr HC E Hu). intros H. contradiction. Qed.

  Lemma again_closed s es : closed_in (ring_of es) = true -> clear s es -> ch_tx s i = TAgain SQueued -> comes 2 s es.
  Proof.
    intros Hcl (Hr & HC & Hu & HL) E. pose proof (link_run _ _ _ _ _ _ Hr) as HK. destruct (tx_odd s i HK ltac:(rewrite E; discriminate)) as [Hev _].
    pose proof (K_r _ HK i Hev) as Kr. rewrite E in Kr. cbn in Kr.
    assert (Hs : cstep_sys s (CTx i w false) = Some (on_tx (on_ring s (mkS (st_core (ch_ring s)) (upd (st_agents (ch_ring s)) i PStart))) i (TPush SQueued), [OnRing (Invoke i OpPush)])).
    { cbn [ChannelModel.cstep_sys]. unfold tx_step. rewrite E. unfold ring_do. cbn [step]. rewrite Kr. reflexivity. }
    apply (comes_step _ _ _ _ _ Hs). clear Hs.
    destruct (good_now W cap pol Hwf _ _ (crun_ring _ _ _ _ _ _ Hr) HC) as (q & hist & g & HI & HO).
    pose proof (CoreInv.inv_s _ _ _ _ _ _ _ HI) as HS. pose proof (solo_top W cap Hwf _ _ _ _ HS i) as Ht.
    rewrite (h_closed _ _ _ HO), Hcl in Ht.
    match goal with |- comes _ ?s0 _ => set (s1 := s0) end.
    assert (Hst : step P pol (ch_ring s1) (AStep i false) = Some (mkS (st_core (ch_ring s)) (upd (upd (st_agents (ch_ring s)) i PStart) i Idle), Some (RetPushClosed i))).
    { subst s1. cbn [ch_ring on_tx on_ring step st_agents st_core].
      replace (upd (st_agents (ch_ring s)) i PStart i) with PStart by (unfold upd; now rewrite Nat.eqb_refl). cbn [stepping cstep]. rewrite Ht. reflexivity. }
    assert (E1 : ch_tx s1 i = TPush SQueued) by (subst s1; cbn; apply tset_same).
    apply (comes_step _ _ _ _ _ (push_step s1 SQueued _ _ E1 Hst)). apply comes_now. cbn. now rewrite tset_same.
  Qed.

  Lemma idle_call s es : crun es s -> memory_ok es -> ch_tx s i = TAgain SQueued \/ ch_tx s i = TPush SQueued -> n_state (q_heap (ch_queue s) i) = Q_WAKING.
  Proof.
    intros Hr Hm E. pose proof (link_run _ _ _ _ _ _ Hr) as HK. destruct (tx_odd s i HK ltac:(destruct E as [E|E]; rewrite E; discriminate)) as [_ H0].
    pose proof (K_q _ HK i H0) as Kq. destruct (qrun_inv _ _ _ (crun_queue _ _ _ _ _ _ Hr) Hm) as [HI _]. pose proof (I_node _ _ HI i) as HN.
    destruct E as [E|E]; rewrite E in Kq; cbn in Kq; destruct Kq as [Kp Kc]; rewrite Kp, Kc in HN; cbn in HN; tauto.
  Qed.

  Lemma queued s es : async = false -> crun es s -> memory_ok es -> ring_calm W cap es -> tail_unoccupied W cap (ch_ring s) i -> lock_free (ch_queue s) ->
    ~ stuck s es ->
    match ch_tx s i with TAgain SQueued | TPush SQueued | TCall SQueued | TWait SQueued => True | _ => False end -> comes 57 s es.
  Proof.
    intros Ha Hr Hm HC Hu HLf Hns Hpc. pose proof (link_run _ _ _ _ _ _ Hr) as HK.
    destruct (tx_odd s i HK ltac:(intros E; rewrite E in Hpc; exact Hpc)) as [_ H0]. pose proof (K_q _ HK i H0) as Kq.
    assert (Hb : blk (ch_tx s i) (q_pc (ch_queue s) i) (q_phase (ch_queue s) i)).
    { apply (blk_run W cap pol debug es s); auto. rewrite <- Ha. exact Hr. }
    destruct (qrun_inv _ _ _ (crun_queue _ _ _ _ _ _ Hr) Hm) as [HI _]. pose proof (I_node _ _ HI i) as HN. clear HI.
    assert (HL : (forall st, ch_tx s i <> TWait st) -> q_lock (ch_queue s) = None).
    { intros Hw. destruct HLf as [H|[_ H]]; [exact H|]. destruct (ch_tx s i) as [| |[]|[]|[]|[]| | | | | | | | | | | |]; try (exfalso; exact Hpc);
        try (destruct Kq as [Kq _]; rewrite Kq in H; discriminate). now destruct (Hw SQueued). }
    assert (Hcl0 : (forall st, ch_tx s i <> TWait st) -> clear s es) by (intros Hw; repeat split; auto).
    destruct (N.eq_dec (n_state (q_heap (ch_queue s) i)) Q_WAKING) as [Hwk|Hwk].
    - destruct (Nat.eq_dec (occupancy (ring_of es)) cap) as [Ho|Ho].
      + destruct (closed_in (ring_of es)) eqn:Hcl; [|exfalso; apply Hns; split; auto].
        assert (Hcall : forall s' es', clear s' es' -> ch_tx s' i = TCall SQueued -> closed_in (ring_of es') = true -> comes 14 s' es').
        { intros s' es' (Hr' & HC' & Hu' & HL') E' Hcl'. apply (at_call 2 SQueued s' es' Hr' E' HL'). apply notify_with; auto.
          intros s2 es2 Hc2 E2 Er2 _. apply again_closed; auto. now rewrite Er2. }
        destruct (ch_tx s i) as [| |[]|[]|[]|[]| | | | | | | | | | | |] eqn:E; try (exfalso; exact Hpc).
        * apply (comes_mono 2); [lia|]. apply again_closed; auto. apply Hcl0. discriminate.
        * apply (comes_mono 20); [lia|]. apply (at_push 14 SQueued s es Hr HC E Hu). intros _. apply fill_with; [apply HL; discriminate|].
          intros s' es' Hc E' _ Hcl'. apply Hcall; auto; [|congruence]. unfold full_pc in E'. now rewrite Ha in E'.
        * apply (comes_mono 14); [lia|]. apply Hcall; auto. apply Hcl0. discriminate.
        * apply (comes_mono 13); [lia|]. apply (wait_any 2 SQueued); auto. intros s' es' Hc E' Er _. apply again_closed; auto. now rewrite Er.
      + destruct (ch_tx s i) as [| |[]|[]|[]|[]| | | | | | | | | | | |] eqn:E; try (exfalso; exact Hpc).
        * apply (comes_mono 7); [lia|]. apply again_room; auto. apply Hcl0. discriminate.
        * apply (comes_mono 6); [lia|]. apply (at_push 0 SQueued s es Hr HC E Hu). intros H. contradiction.
        * apply (comes_mono 19); [lia|]. apply (at_call 7 SQueued s es Hr E (HL ltac:(discriminate))). apply notify_with; auto.
          intros s' es' Hc E' Er _. apply again_room; auto. now rewrite Er.
        * apply (comes_mono 18); [lia|]. apply (wait_any 7 SQueued); auto. intros s' es' Hc E' Er _. apply again_room; auto. now rewrite Er.
    - destruct (ch_tx s i) as [| |[]|[]|[]|[]| | | | | | | | | | | |] eqn:E; try (exfalso; exact Hpc).
      + exfalso. apply Hwk. apply (idle_call s es); auto.
      + exfalso. apply Hwk. apply (idle_call s es); auto.
      + apply (comes_mono 12); [lia|]. apply (at_call 0 SQueued s es Hr E (HL ltac:(discriminate))). apply notify_with; auto.
        intros s' es' _ _ _ [[H _]|[(H & _)|[_ H]]]; cbn [with_pc q_pc call_pc q_heap] in H; try rewrite pset_same in H; try discriminate H; contradiction.
      + apply (comes_mono 11); [lia|]. apply (wait_any 0 SQueued); auto. intros s' es' _ _ _ Hh. exfalso.
        cbn in Kq, Hb. destruct Kq as [_ Kc]. unfold heard in Hh.
        destruct Hh as [[H _]|[(H & _)|[_ H]]]; [..|contradiction];
          destruct (q_pc (ch_queue s) i); try discriminate H; try (match goal with r : wait_result |- _ => destruct r; try discriminate H end); cbn in HN;
          destruct Kc as [Kc|Kc]; rewrite Kc in *; cbn [rest] in HN; try (destruct (Hb eq_refl)); intuition congruence.
  Qed.

  (** Every send comes to rest, but for the one of C63_send_spins. *)
  Lemma send_returns s es : crun es s -> memory_ok es -> ring_calm W cap es -> sending (ch_tx s i) = true ->
    tail_unoccupied W cap (ch_ring s) i -> q_lock (ch_queue s) = None \/ q_lock (ch_queue s) = Some i ->
    async = true \/ ~ stuck s es -> comes 57 s es.
  Proof.
    intros Hr Hm HC Hse Hu HL0 Hc. pose proof (lock_own _ _ Hr Hm HL0) as HL.
    pose proof (link_run _ _ _ _ _ _ Hr) as HK. destruct (tx_odd s i HK ltac:(intros E; rewrite E in Hse; discriminate)) as [_ H0].
    pose proof (K_q _ HK i H0) as Kq.
    assert (Hcl : (forall st, ch_tx s i <> TWait st) -> clear s es).
    { intros Hw. repeat split; auto. destruct HL as [H|[_ H]]; [exact H|].
      destruct (ch_tx s i) as [| |[]|[]|[]|st| | | | | | | | | | | |]; try discriminate Hse; try (now destruct (Hw st)); destruct Kq as [Kq _]; rewrite Kq in H; discriminate. }
    assert (Hd : async = true \/ (async = false /\ ~ stuck s es)) by (destruct Hc; destruct async; auto). clear Hc.
    destruct (ch_tx s i) as [| |[]|[]|[]|[]| | | | | | | | | | | |] eqn:E; try discriminate Hse; try (destruct Kq as [_ []]; fail);
      try (assert (Hcl' : clear s es) by (apply Hcl; discriminate); clear Hcl; pose proof Hcl' as (_ & _ & _ & HLn)).
    - apply (comes_mono 39); [lia|]. now apply new_step.
    - apply (comes_mono 46); [lia|]. apply (at_try 39 SFast s es Hr HC E Hu). intros _. apply fill_with; auto. intros; now apply new_step.
    - apply (comes_mono 38); [lia|]. now apply unq_again.
    - destruct Hd as [Ha|[Ha Hns]]; [|apply queued; auto; now rewrite E]. apply (comes_mono 45); [lia|]. now apply async_again.
    - apply (comes_mono 7); [lia|]. apply (at_try 0 STry s es Hr HC E Hu). intros _. apply fill_with; auto. intros s' es' _ E' _ _. apply comes_now. now rewrite E'.
    - apply (comes_mono 45); [lia|]. apply (at_push 39 SFast s es Hr HC E Hu). intros _. apply fill_with; auto. intros; now apply new_step.
    - apply (comes_mono 37); [lia|]. now apply unq_push.
    - destruct Hd as [Ha|[Ha Hns]]; [|apply queued; auto; now rewrite E].
      apply (comes_mono 44); [lia|]. apply (at_push 38 SQueued s es Hr HC E Hu). intros _. apply fill_with; auto.
      intros s' es' Hc' E' _ _. apply unq_again; auto. unfold full_pc in E'. rewrite E', Ha. reflexivity.
    - apply (comes_mono 6); [lia|]. apply (at_push 0 STry s es Hr HC E Hu). intros _. apply fill_with; auto. intros s' es' _ E' _ _. apply comes_now. now rewrite E'.
    - apply (comes_mono 31); [lia|]. now apply unq_call.
    - destruct Hd as [Ha|[Ha Hns]]; [|apply queued; auto; now rewrite E].
      apply (at_call 45 SQueued s es Hr E HLn). apply notify_with; auto. intros; now apply async_again.
    - apply (comes_mono 49); [lia|]. apply (wait_any 38 SUnq); auto. intros; now apply unq_again.
    - destruct Hd as [Ha|[Ha Hns]]; [|apply queued; auto; now rewrite E].
      apply (comes_mono 56); [lia|]. apply (wait_any 45 SQueued); auto. intros; now apply async_again.
  Qed.
End Alone.
