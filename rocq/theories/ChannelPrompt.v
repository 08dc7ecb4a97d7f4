(** A receive that finds a message, and a send that finds room, when nobody else runs. *)
From Coq Require Import List Bool Arith NArith Lia.
From Coq Require Import ZifyN ZifyNat ZifyBool.
From Verif Require CoreInv CoreStep RingFacts.
From Verif Require Import CoreArith RingSpec SoloSpec SeqModel Solo SoloFacts.
From Verif Require Import QueueSpec CoreModel WaitCellModel HistoryFacts.
From Verif Require WaitCellSpec WaitCellFacts WaitCellTheorems WaitQueueModel.
From Verif Require Import ChannelModel ChannelSpec ChannelFacts ChannelLink ChannelEvents ChannelRing ChannelSend ChannelRecv ChannelProgress PollSpec SpinSpec ChannelPoll ChannelAlone.
From Verif Require Import History.
Import ListNotations.

Section Prompt.
  Context {T : Type}.
  Variables (W : N) (cap : nat) (pol : policy T) (async debug : bool).
  Hypothesis Hwf : wf W cap.
  Notation P := (core_new W (N.of_nat cap)).
  Notation cstep_sys := (@cstep_sys T P pol async debug).
  Notation crun := (@crun T P pol async debug).
  Notation rx_alone := (rx_alone P pol async debug).
  Notation tx_alone := (tx_alone P pol async debug).
  Notation enc := (enc W cap).
  Local Arguments drop_id : simpl never.

  (** ** Receiving *)
  Lemma front_published (es : list (event T)) r v (q : queue T) : hist_ok cap es q -> committed es (count is_take es) = Some v -> qtaken q = r ->
    nth_error (qlog q) r = Some (Published v).
  Proof.
    intros HO Hv <-. pose proof (h_take _ _ _ HO) as Ht. rewrite <- Ht in Hv.
    destruct (nth_error (qlog q) (qtaken q)) as [e|] eqn:E.
    2:{ apply nth_error_None in E. rewrite (h_committed_none _ _ _ HO _ E) in Hv. discriminate. }
    pose proof (h_entry _ _ _ HO _ _ E) as He. pose proof (h_done _ _ _ HO _ _ E) as Hd.
    destruct e as [i|i u|u|i u|u]; cbn [entry_hist CoreInv.done_entry] in He, Hd.
    - destruct He as [_ He]. congruence.
    - destruct He as (_ & He & _). congruence.
    - congruence.
    - exfalso. destruct Hd as [_ Hd]. specialize (Hd I). lia.
    - exfalso. destruct Hd as [_ Hd]. specialize (Hd I). lia.
  Qed.

  Lemma rx_one k s es s' l : rx_free s = false -> cstep_sys s (CRx false) = Some (s', l) -> rx_alone (S k) s es = rx_alone k s' (l ++ es).
  Proof. intros Hf Hs. cbn [PollSpec.rx_alone]. rewrite Hf, Hs. reflexivity. Qed.

  Lemma pop_silent s h k p' : ch_rx s = RPop h k -> stepping (st_agents (ch_ring s) h) = true ->
    cstep P pol (st_core (ch_ring s)) h (st_agents (ch_ring s) h) false = (st_core (ch_ring s), p', None) ->
    cstep_sys s (CRx false) = Some (on_ring s (mkS (st_core (ch_ring s)) (upd (st_agents (ch_ring s)) h p')), []).
  Proof.
    intros E Hst Hc. cbn [ChannelModel.cstep_sys]. unfold rx_step. rewrite E. unfold ring_do. cbn [step]. rewrite Hst, Hc. reflexivity.
  Qed.

  Lemma recv_prompt s es h k v : crun es s -> ring_calm W cap es -> ch_rx s = RAgain h k ->
    committed (ring_of es) (count is_take (ring_of es)) = Some v ->
    exists s', rx_alone 4 s es = Some (s', Recvd (RecvMsg h v) :: OnRing (Take h v) :: OnRing (Invoke h OpPop) :: es) /\ ch_refs s' = h :: ch_refs s.
  Proof.
    intros Hr HC E Hv. pose proof (link_run _ _ _ _ _ _ Hr) as HK.
    destruct (good_now W cap pol Hwf _ _ (crun_ring _ _ _ _ _ _ Hr) HC) as (q & hist & g & HI & HO).
    pose proof (CoreInv.inv_s _ _ _ _ _ _ _ HI) as HS.
    pose proof (front_published _ _ _ _ HO Hv eq_refl) as Hp.
    destruct (K_use _ HK h ltac:(now rewrite E)) as [Hev Hni].
    assert (Hid : st_agents (ch_ring s) h = Idle) by (pose proof (proj2 (K_h _ HK h Hev) Hni) as H; now rewrite E in H).
    set (c := st_core (ch_ring s)) in *. set (ag := st_agents (ch_ring s)) in *.
    set (s1 := on_rx (on_ring s (mkS c (upd ag h QStart))) (RPop h k)).
    assert (Hs1 : cstep_sys s (CRx false) = Some (s1, [OnRing (Invoke h OpPop)])).
    { cbn [ChannelModel.cstep_sys]. unfold rx_step. rewrite E. unfold ring_do. cbn [step]. fold ag. rewrite Hid. reflexivity. }
    rewrite (rx_one _ _ _ _ _ ltac:(unfold rx_free; now rewrite E) Hs1). cbn [app].
    set (s2 := on_ring s1 (mkS c (upd (upd ag h QStart) h (QState (enc (qtaken q)) 0)))).
    assert (Hs2 : cstep_sys s1 (CRx false) = Some (s2, [])).
    { apply (pop_silent s1 h k); [reflexivity|cbn; now rewrite CoreInv.upd_same|cbn [s1 on_rx on_ring ch_ring st_agents st_core]; rewrite CoreInv.upd_same].
      cbn [cstep]. now rewrite (CoreInv.i_head _ _ _ _ _ _ HS). }
    rewrite (rx_one _ s1 _ _ _ eq_refl Hs2). cbn [app].
    set (s3 := on_ring s2 (mkS c (upd (st_agents (ch_ring s2)) h (QCas (enc (qtaken q)) 0)))).
    assert (Hs3 : cstep_sys s2 (CRx false) = Some (s3, [])).
    { apply (pop_silent s2 h k); [reflexivity|cbn; now rewrite CoreInv.upd_same|cbn [s2 s1 on_rx on_ring ch_ring st_agents st_core]; rewrite CoreInv.upd_same].
      exact (solo_pop_ready W cap pol Hwf c ag q g HS h v 0 Hp). }
    rewrite (rx_one _ s2 _ _ _ eq_refl Hs3). cbn [app].
    pose proof (solo_pop_take W cap pol Hwf c ag q g HS h v 0 Hp) as Ht.
    eexists. split.
    - erewrite rx_one; [|reflexivity|].
      2:{ cbn [ChannelModel.cstep_sys]. unfold rx_step. cbn [ch_rx s3 s2 s1 on_ring on_rx]. unfold ring_do. cbn [step ch_ring on_ring on_rx s3 st_agents st_core].
          rewrite CoreInv.upd_same. cbn [stepping]. rewrite Ht. cbn [pop_ret olist map app]. reflexivity. }
      cbn [PollSpec.rx_alone rx_free ch_rx on_refs on_rx app]. reflexivity.
    - reflexivity.
  Qed.

  (** ** Sending *)
  Lemma tx_one i w k s es s' l : tx_rests (ch_tx s i) = false -> cstep_sys s (CTx i w false) = Some (s', l) ->
    tx_alone (S k) s es i w = tx_alone k s' (l ++ es) i w.
  Proof. intros Hf Hs. cbn [SpinSpec.tx_alone]. rewrite Hf, Hs. reflexivity. Qed.

  Lemma push_silent i w s st c' p' e : ch_tx s i = TPush st -> stepping (st_agents (ch_ring s) i) = true ->
    cstep P pol (st_core (ch_ring s)) i (st_agents (ch_ring s) i) false = (c', p', e) -> push_ret e = None ->
    cstep_sys s (CTx i w false) = Some (on_ring s (mkS c' (upd (st_agents (ch_ring s)) i p')), map OnRing (olist e)).
  Proof.
    intros E Hst Hc He. rewrite (push_step W cap pol async debug i w s st (mkS c' (upd (st_agents (ch_ring s)) i p')) e E).
    - now rewrite He.
    - cbn [step]. rewrite Hst, Hc. reflexivity.
  Qed.

  Lemma tx_invoke i w s es st : crun es s -> ch_tx s i = TAgain st ->
    st_agents (ch_ring s) i = Idle /\
    cstep_sys s (CTx i w false) = Some (on_tx (on_ring s (mkS (st_core (ch_ring s)) (upd (st_agents (ch_ring s)) i PStart))) i (TPush st), [OnRing (Invoke i OpPush)]).
  Proof.
    intros Hr E. pose proof (link_run _ _ _ _ _ _ Hr) as HK. destruct (tx_odd s i HK ltac:(rewrite E; discriminate)) as [Hev _].
    pose proof (K_r _ HK i Hev) as Kr. rewrite E in Kr. cbn in Kr. split; [exact Kr|].
    cbn [ChannelModel.cstep_sys]. unfold tx_step. rewrite E. unfold ring_do. cbn [step]. rewrite Kr. reflexivity.
  Qed.

  Lemma send_closed_prompt i w s es st : crun es s -> ring_calm W cap es -> ch_tx s i = TAgain st ->
    closed_in (ring_of es) = true ->
    exists s', tx_alone 2 s es i w = Some (s', Sent i SentClosed :: OnRing (RetPushClosed i) :: OnRing (Invoke i OpPush) :: es) /\ ch_tx s' i = TEnd.
  Proof.
    intros Hr HC E Hcl.
    destruct (good_now W cap pol Hwf _ _ (crun_ring _ _ _ _ _ _ Hr) HC) as (q & hist & g & HI & HO).
    pose proof (CoreInv.inv_s _ _ _ _ _ _ _ HI) as HS.
    destruct (tx_invoke i w s es st Hr E) as [Hid Hs1].
    rewrite (tx_one i w _ s _ _ _ ltac:(now rewrite E) Hs1).
    set (s1 := on_tx _ _ _) in *.
    assert (E1 : ch_tx s1 i = TPush st) by apply tset_same.
    pose proof (solo_top W cap Hwf _ _ _ _ HS i) as Ht. rewrite (h_closed _ _ _ HO), Hcl in Ht.
    assert (Hs2 : step P pol (ch_ring s1) (AStep i false) = Some (mkS (st_core (ch_ring s)) (upd (st_agents (ch_ring s1)) i Idle), Some (RetPushClosed i))).
    { cbn [step s1 ch_ring on_tx on_ring st_agents st_core]. rewrite CoreInv.upd_same. cbn [stepping cstep]. rewrite Ht. reflexivity. }
    pose proof (push_step W cap pol async debug i w s1 st _ _ E1 Hs2) as Hs2'. cbn [push_ret olist map app] in Hs2'.
    rewrite (tx_one i w _ s1 _ _ _ ltac:(now rewrite E1) Hs2'). cbn [app].
    eexists. split.
    - cbn [SpinSpec.tx_alone finish on_live on_tx ch_tx]. rewrite tset_same. cbn [tx_rests]. reflexivity.
    - cbn [finish on_live on_tx ch_tx]. apply tset_same.
  Qed.

  Lemma send_prompt i w s es st : crun es s -> ring_calm W cap es -> ch_tx s i = TAgain st ->
    closed_in (ring_of es) = false -> occupancy (ring_of es) < cap -> tail_unoccupied W cap (ch_ring s) i ->
    exists s' e, tx_alone 5 s es i w = Some (s', Sent i SentOk :: OnRing e :: OnRing (Reserve i) :: OnRing (Invoke i OpPush) :: es) /\
      ch_tx s' i = THold /\ ((exists v, e = HandOut i v) \/ (exists l v, e = Overwrite i l v)).
  Proof.
    intros Hr HC E Hcl Hroom Hu.
    destruct (good_now W cap pol Hwf _ _ (crun_ring _ _ _ _ _ _ Hr) HC) as (q & hist & g & HI & HO).
    pose proof (CoreInv.inv_s _ _ _ _ _ _ _ HI) as HS.
    destruct (tx_invoke i w s es st Hr E) as [Hid Hs1].
    assert (Hq : qclosed q = false) by (rewrite (h_closed _ _ _ HO); exact Hcl).
    assert (Hlt : length (qlog q) < qtaken q + cap).
    { rewrite (h_res _ _ _ HO), (h_take _ _ _ HO). unfold occupancy in Hroom. lia. }
    assert (Hf : free_at cap q (length (qlog q))).
    { destruct (unoccupied_unblocked W cap Hwf _ _ _ i HS ltac:(now rewrite Hid) Hu) as [H|(Hn & v & Hv)]; [exact H|].
      exfalso. pose proof (CoreInv.i_done _ _ _ _ _ _ HS _ _ Hv) as Hd. cbn [CoreInv.done_entry] in Hd. apply Hd. lia. }
    rewrite (tx_one i w _ s _ _ _ ltac:(now rewrite E) Hs1). cbn [app].
    set (c := st_core (ch_ring s)) in *. set (ag := st_agents (ch_ring s)) in *.
    set (n := length (qlog q)) in *.
    set (s1 := on_tx _ _ _) in *.
    assert (E1 : ch_tx s1 i = TPush st) by apply tset_same.
    assert (R1 : ch_ring s1 = mkS c (upd ag i PStart)) by reflexivity.
    assert (Hs2 : cstep_sys s1 (CTx i w false) = Some (on_ring s1 (mkS c (upd (upd ag i PStart) i (PState (enc n)))), map OnRing (olist None))).
    { apply (push_silent i w s1 st c (PState (enc n)) None E1); rewrite ?R1; cbn [st_agents st_core]; rewrite ?CoreInv.upd_same; try reflexivity.
      cbn [cstep]. rewrite (solo_top W cap Hwf _ _ _ _ HS i), Hq. reflexivity. }
    rewrite (tx_one i w _ s1 _ _ _ ltac:(now rewrite E1) Hs2). cbn [map olist app].
    set (s2 := on_ring s1 _) in *.
    assert (E2 : ch_tx s2 i = TPush st) by exact E1.
    assert (R2 : ch_ring s2 = mkS c (upd (upd ag i PStart) i (PState (enc n)))) by reflexivity.
    assert (Hs3 : cstep_sys s2 (CTx i w false) = Some (on_ring s2 (mkS c (upd (st_agents (ch_ring s2)) i (PCas (enc n)))), map OnRing (olist None))).
    { apply (push_silent i w s2 st c (PCas (enc n)) None E2); rewrite ?R2; cbn [st_agents st_core]; rewrite ?CoreInv.upd_same; try reflexivity.
      exact (solo_state_free W cap pol Hwf c ag q g HS i Hf). }
    rewrite (tx_one i w _ s2 _ _ _ ltac:(now rewrite E2) Hs3). cbn [map olist app].
    set (s3 := on_ring s2 _) in *.
    assert (E3 : ch_tx s3 i = TPush st) by exact E1.
    assert (R3 : ch_ring s3 = mkS c (upd (st_agents (ch_ring s2)) i (PCas (enc n)))) by reflexivity.
    assert (Hs4 : cstep_sys s3 (CTx i w false) = Some (on_ring s3 (mkS (set_tail c (enc (S n))) (upd (st_agents (ch_ring s3)) i (PInit (enc n)))), map OnRing (olist (Some (Reserve i))))).
    { apply (push_silent i w s3 st _ (PInit (enc n)) (Some (Reserve i)) E3); rewrite ?R3; cbn [st_agents st_core]; rewrite ?CoreInv.upd_same; try reflexivity.
      cbn [cstep]. rewrite (CoreInv.i_tail _ _ _ _ _ _ HS), Hq. fold n. change (word W cap false n) with (enc n).
      rewrite N.eqb_refl, (idx_gen_enc _ _ Hwf), (next_enc _ _ Hwf). reflexivity. }
    rewrite (tx_one i w _ s3 _ _ _ ltac:(now rewrite E3) Hs4). cbn [map olist app].
    set (s4 := on_ring s3 _) in *.
    assert (E4 : ch_tx s4 i = TPush st) by exact E1.
    destruct (init_after_cas W cap pol Hwf c ag q g i (enc (S n)) HS Hf) as [c' Hi]. fold n in Hi.
    assert (He : push_ret (Some (handout_event W cap pol q i n)) = Some PushOk /\ ((exists v, handout_event W cap pol q i n = HandOut i v) \/ (exists l v, handout_event W cap pol q i n = Overwrite i l v))).
    { unfold handout_event. destruct (leftover cap q n); [destruct (gfield W cap n =? 0)%N|]; cbn [push_ret]; eauto. }
    destruct He as [He1 He2]. set (e := handout_event W cap pol q i n) in *.
    assert (Hs5 : step P pol (ch_ring s4) (AStep i false) = Some (mkS c' (upd (st_agents (ch_ring s4)) i (PHold (mkRef (ifield cap n) (enc n + 1)))), Some e)).
    { cbn [step s4 ch_ring on_ring st_agents st_core]. rewrite CoreInv.upd_same. cbn [stepping]. rewrite Hi. reflexivity. }
    pose proof (push_step W cap pol async debug i w s4 st _ _ E4 Hs5) as Hs5'. rewrite He1 in Hs5'. cbn [olist map app] in Hs5'.
    rewrite (tx_one i w _ s4 _ _ _ ltac:(now rewrite E4) Hs5'). cbn [app].
    eexists _, e. split; [|split; [|exact He2]].
    - cbn [SpinSpec.tx_alone on_tx ch_tx]. rewrite tset_same. cbn [tx_rests]. reflexivity.
    - cbn [on_tx ch_tx]. apply tset_same.
  Qed.

  (** ** A push that spins makes the send spin *)
  Lemma push_never i w n : forall s es st res, ch_tx s i = TPush st -> pushing (st_agents (ch_ring s) i) = true ->
    (forall k, call P pol k (ch_ring s) res i = None) -> tx_alone n s es i w = None.
  Proof.
    induction n as [|n IH]; intros s es st res E Hp Hc; [cbn [SpinSpec.tx_alone]; now rewrite E|].
    assert (Hst : stepping (st_agents (ch_ring s) i) = true).
    { specialize (Hc 0). cbn [call] in Hc. destruct (stepping (st_agents (ch_ring s) i)); [reflexivity|discriminate]. }
    destruct (ring_steps W cap pol (ch_ring s) i false Hst) as (r1 & e & Hs).
    assert (Hc' : forall k, call P pol k r1 (match e with Some x => x :: res | None => res end) i = None).
    { intros k. specialize (Hc (S k)). cbn [call] in Hc. rewrite Hst, Hs in Hc. exact Hc. }
    assert (Hst' : stepping (st_agents r1 i) = true).
    { specialize (Hc' 0). cbn [call] in Hc'. destruct (stepping (st_agents r1 i)); [reflexivity|discriminate]. }
    destruct (r_own _ _ _ _ _ _ _ Hs) as (_ & Hown & _). specialize (Hown Hp).
    pose proof (push_step W cap pol async debug i w s st r1 e E Hs) as Hcs.
    destruct (push_ret e) as [[]|].
    1-3: exfalso; destruct Hown as [x Hx]; first [rewrite Hx in Hst'; discriminate Hst'|rewrite x in Hst'; discriminate Hst'].
    - rewrite (tx_one i w _ s _ _ _ ltac:(now rewrite E) Hcs). exact (IH (on_ring s r1) _ st _ E Hown Hc').
  Qed.

  Lemma send_never i j w s es st : crun es s -> ring_calm W cap es -> ch_tx s i = TAgain st ->
    closed_in (ring_of es) = false -> j <> i ->
    occupies P (st_agents (ch_ring s) j) = Some (tail_index P (st_core (ch_ring s))) -> forall n, tx_alone n s es i w = None.
  Proof.
    intros Hr HC E Hcl Hj Hocc n.
    destruct (good_now W cap pol Hwf _ _ (crun_ring _ _ _ _ _ _ Hr) HC) as (q & hist & g & HI & HO).
    pose proof (CoreInv.inv_s _ _ _ _ _ _ _ HI) as HS.
    destruct (tx_invoke i w s es st Hr E) as [Hid Hs1].
    destruct n as [|n]; [cbn [SpinSpec.tx_alone]; now rewrite E|].
    rewrite (tx_one i w _ s _ _ _ ltac:(now rewrite E) Hs1).
    pose proof (crun_step _ _ _ _ _ _ _ _ _ Hr Hs1) as Hr1. set (s1 := on_tx _ _ _) in *.
    apply (push_never i w n s1 _ st (ring_of ([OnRing (Invoke i OpPush)] ++ es))).
    - apply tset_same.
    - cbn. now rewrite CoreInv.upd_same.
    - apply (push_spins W cap pol Hwf _ _ i j (crun_ring _ _ _ _ _ _ Hr1)).
      + exact (calm_quiet W cap Hwf (Invoke i OpPush) (ring_of es) HC eq_refl eq_refl).
      + cbn. apply CoreInv.upd_same.
      + cbn [s1 ch_ring on_tx on_ring st_core]. rewrite (CoreInv.i_tail _ _ _ _ _ _ HS).
        pose proof (closed_test _ _ Hwf (qclosed q) (length (qlog q))) as H. rewrite (h_closed _ _ _ HO), Hcl in H |- *.
        apply negb_false_iff in H. now apply N.eqb_eq in H.
      + cbn [s1 ch_ring on_tx on_ring st_core st_agents]. now rewrite CoreInv.upd_other by exact Hj.
  Qed.

  (** ** From the call on *)
  Lemma recv_call s es a s1 l h v : crun es s -> ring_calm W cap es -> (a = CTryRecv h \/ exists w, a = CRecv h w) -> cstep_sys s a = Some (s1, l) ->
    committed (ring_of es) (count is_take (ring_of es)) = Some v ->
    exists s' es', rx_alone 4 s1 (l ++ es) = Some (s', Recvd (RecvMsg h v) :: es').
  Proof.
    intros Hr HC Ha Hs Hv. pose proof (crun_step _ _ _ _ _ _ _ _ _ Hr Hs) as Hr1.
    assert (H : exists k x, s1 = on_rx s (RAgain h k) /\ l = [Recving h x]).
    { destruct Ha as [->|[w ->]]; cbn [ChannelModel.cstep_sys] in Hs;
        (destruct (rx_free s && Nat.even h && ring_idle s h); [|discriminate]); injection Hs as <- <-; eauto. }
    destruct H as (k & x & -> & ->).
    destruct (recv_prompt _ _ h k v Hr1 HC eq_refl Hv) as (s' & H & _). eauto.
  Qed.

  Lemma tx_mono i w k : forall k' s es r, k <= k' -> tx_alone k s es i w = Some r -> tx_alone k' s es i w = Some r.
  Proof.
    induction k as [|k IH]; intros [|k'] s es r Hle H; cbn [SpinSpec.tx_alone] in *; try lia; try assumption.
    - destruct (tx_rests (ch_tx s i)); [exact H|discriminate].
    - destruct (tx_rests (ch_tx s i)); [exact H|]. destruct (cstep_sys s (CTx i w false)) as [[s1 l]|]; [|discriminate]. apply IH; [lia|exact H].
  Qed.

  (** Up to where it looks at the queue for the first time. *)
  Lemma send_starts i try w s es s1 l : crun es s -> ring_calm W cap es -> cstep_sys s (CSend i try) = Some (s1, l) ->
    exists n s2 es2 st, n <= 1 /\ crun es2 s2 /\ ring_of es2 = ring_of es /\ ch_ring s2 = ch_ring s /\ ch_tx s2 i = TAgain st /\
      forall k, tx_alone (n + k) s1 (l ++ es) i w = tx_alone k s2 es2 i w.
  Proof.
    intros Hr HC Hs. pose proof (crun_step _ _ _ _ _ _ _ _ _ Hr Hs) as Hr1.
    assert (H : s1 = on_live (on_tx s i (if try then TAgain STry else if async then TNew else TAgain SFast)) (i :: ch_live s) /\ l = [Sending i try]).
    { cbn [ChannelModel.cstep_sys] in Hs. destruct (fresh_tx s i && (0 <? ch_count s)); [|discriminate]. injection Hs as <- <-. auto. }
    destruct H as [E1 ->].
    assert (Et : ch_tx s1 i = if try then TAgain STry else if async then TNew else TAgain SFast) by (rewrite E1; apply tset_same).
    assert (Er : ch_ring s1 = ch_ring s) by (rewrite E1; reflexivity).
    assert (Hnow : forall st, ch_tx s1 i = TAgain st -> exists n s2 es2 st, n <= 1 /\ crun es2 s2 /\ ring_of es2 = ring_of es /\ ch_ring s2 = ch_ring s /\ ch_tx s2 i = TAgain st /\
      forall k, tx_alone (n + k) s1 ([Sending i try] ++ es) i w = tx_alone k s2 es2 i w).
    { intros st E. exists 0, s1, ([Sending i try] ++ es), st. repeat (split; auto). }
    destruct try; [exact (Hnow _ Et)|]. destruct async eqn:Ea; [|exact (Hnow _ Et)]. clear Hnow.
    pose proof (link_run _ _ _ _ _ _ Hr1) as HK. destruct (tx_odd s1 i HK ltac:(rewrite Et; discriminate)) as [_ H0].
    pose proof (K_q _ HK i H0) as Kq. rewrite Et in Kq. cbn in Kq. destruct Kq as [Kp Kc].
    assert (H2 : exists q e, ChannelModel.cstep_sys P pol true debug s1 (CTx i w false) = Some (on_tx (on_queue s1 q) i (TAgain SUnq), [OnQueue e])).
    { cbn [ChannelModel.cstep_sys]. unfold tx_step. rewrite Et. unfold queue_do. cbn [WaitQueueModel.qstep_sys]. unfold WaitQueueModel.idle. rewrite Kp, Kc. do 2 eexists. reflexivity. }
    destruct H2 as (q & e & H2).
    exists 1, (on_tx (on_queue s1 q) i (TAgain SUnq)), ([OnQueue e] ++ [Sending i false] ++ es), SUnq.
    split; [auto|]. split; [exact (crun_step _ _ _ _ _ _ _ _ _ Hr1 H2)|]. split; [reflexivity|]. split; [exact Er|]. split; [apply tset_same|].
    intros k. cbn [plus SpinSpec.tx_alone]. rewrite Et. cbn [tx_rests]. rewrite H2. reflexivity.
  Qed.

  Lemma send_call i try w s es s1 l : crun es s -> ring_calm W cap es -> cstep_sys s (CSend i try) = Some (s1, l) ->
    closed_in (ring_of es) = false -> occupancy (ring_of es) < cap -> tail_unoccupied W cap (ch_ring s) i ->
    exists s' es', tx_alone 6 s1 (l ++ es) i w = Some (s', Sent i SentOk :: es') /\ ch_tx s' i = THold.
  Proof.
    intros Hr HC Hs Hcl Ho Hu. destruct (send_starts i try w s es s1 l Hr HC Hs) as (n & s2 & es2 & st & Hn & Hr2 & E1 & E2 & E3 & Hk).
    unfold ring_calm in HC. rewrite <- E1 in HC, Hcl, Ho. rewrite <- E2 in Hu.
    destruct (send_prompt i w s2 es2 st Hr2 HC E3 Hcl Ho Hu) as (s' & e & H & Ht & _).
    exists s', (OnRing e :: OnRing (Reserve i) :: OnRing (Invoke i OpPush) :: es2). split; [|exact Ht].
    apply (tx_mono i w (n + 5)); [lia|]. rewrite Hk. exact H.
  Qed.

  Lemma send_call_closed i try w s es s1 l : crun es s -> ring_calm W cap es -> cstep_sys s (CSend i try) = Some (s1, l) ->
    closed_in (ring_of es) = true ->
    exists s' es', tx_alone 3 s1 (l ++ es) i w = Some (s', Sent i SentClosed :: es').
  Proof.
    intros Hr HC Hs Hcl. destruct (send_starts i try w s es s1 l Hr HC Hs) as (n & s2 & es2 & st & Hn & Hr2 & E1 & E2 & E3 & Hk).
    unfold ring_calm in HC. rewrite <- E1 in HC, Hcl.
    destruct (send_closed_prompt i w s2 es2 st Hr2 HC E3 Hcl) as (s' & H & _).
    eexists s', _. apply (tx_mono i w (n + 2)); [lia|]. rewrite Hk. exact H.
  Qed.
End Prompt.
