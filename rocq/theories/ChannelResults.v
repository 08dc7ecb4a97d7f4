(** The results of the receiver, as they appear in the history. *)
From Coq Require Import List Bool Arith NArith Lia.
From Verif Require RingFacts.
From Verif Require Import CoreArith RingSpec.
From Verif Require Import QueueSpec CoreModel WaitCellModel WaitQueueModel WaitQueueSpec.
From Verif Require WaitCellSpec.
From Verif Require Import ChannelModel ChannelSpec ChannelFacts ChannelLink ChannelEvents ChannelRing ChannelSend ChannelEnd ChannelDeadlock ChannelDrain ChannelClose ChannelOrder.
From Verif Require Import History.
Import ListNotations.

Section Results.
  Context {T : Type}.
  Variables (W : N) (cap : nat) (pol : policy T) (async debug : bool).
  Hypothesis Hwf : wf W cap.
  Notation P := (core_new W (N.of_nat cap)).
  Notation B := (slack W cap).
  Notation cstep_sys := (@cstep_sys T P pol async debug).
  Notation crun := (@crun T P pol async debug).

  Lemma senders_count es s : crun es s -> senders es = ch_count s.
  Proof. intros Hr. pose proof (senders_run _ _ _ _ _ _ _ Hr). unfold senders. lia. Qed.

  (** The step that gives a result to the receiver. *)
  Lemma result_cut es s es2 r es1 : crun es s -> ring_calm W cap es -> es = es2 ++ Recvd r :: es1 ->
    exists es0 s0 a s1 h e, crun es0 s0 /\ cstep_sys s0 a = Some (s1, [] ++ Recvd r :: [OnRing e]) /\ es1 = OnRing e :: es0 /\ ring_calm W cap es0 /\ ring_calm W cap es1 /\
      (e = RetEmpty h \/ e = RetPopClosed h \/ exists v, e = Take h v).
  Proof.
    intros Hr HC ->. destruct (crun_cut _ _ _ _ _ _ _ Hr _ _ _ eq_refl) as (es0 & s0 & a & s1 & l1 & l2 & Hr0 & Hs & ->).
    destruct (recvd_step _ _ _ _ _ _ _ _ _ _ _ Hs) as (h & k & e & spur & -> & -> & -> & E1 & He & Q).
    assert (HC1 : ring_calm W cap ([OnRing e] ++ es0)) by (apply (calm_tail W cap (es2 ++ [Recvd r])); rewrite <- app_assoc; exact HC).
    exists es0, s0, (CRx spur), s1, h, e. split; [exact Hr0|]. split; [exact Hs|]. split; [reflexivity|]. split; [exact (calm_tail _ _ _ _ HC1)|]. split; [exact HC1|].
    destruct e; try contradiction; destruct Q as (-> & _); eauto.
  Qed.

  Lemma none_true es s es2 r es1 : crun es s -> ring_calm W cap es -> es = es2 ++ Recvd r :: es1 -> r = RecvNone \/ r = RecvClosed ->
    senders es1 = 0 /\ committed (ring_of es1) (count is_take (ring_of es1)) = None.
  Proof.
    intros Hr HC E Hx. destruct (result_cut _ _ _ _ _ Hr HC E) as (es0 & s0 & a & s1 & h & e & Hr0 & Hs & -> & HC0 & _ & He).
    destruct (none_now W cap pol async debug Hwf _ _ _ _ _ _ _ Hr0 HC0 Hs Hx) as (N1 & N2 & _).
    change (senders (OnRing e :: es0)) with (senders es0). rewrite (senders_count _ _ Hr0). split; [exact N1|].
    destruct He as [->|[->|[v ->]]]; try exact N2. exfalso.
    destruct (recvd_step _ _ _ _ _ _ _ _ _ _ _ Hs) as (h' & k & e & spur & _ & El & _ & _ & _ & Q). injection El as <-. destruct Q as (_ & -> & _). destruct Hx; discriminate.
  Qed.
  Lemma none_drained es s es2 r es1 : crun es s -> ring_calm W cap es -> no_user_panic es -> es = es2 ++ Recvd r :: es1 -> r = RecvNone \/ r = RecvClosed ->
    map Some (received es1) = map (committed (ring_of es1)) (seq 0 (count is_reserve (ring_of es1))).
  Proof.
    intros Hr HC Hp E Hx. destruct (none_true _ _ _ _ _ Hr HC E Hx) as [N1 N2].
    destruct (result_cut _ _ _ _ _ Hr HC E) as (es0 & s0 & a & s1 & h & e & Hr0 & Hs & -> & HC0 & HC1 & He).
    assert (Hp0 : no_user_panic es0). { intros i Hin. apply (Hp i). rewrite E. apply in_or_app. right. right. now right. }
    change (senders (OnRing e :: es0)) with (senders es0) in N1. rewrite (senders_count _ _ Hr0) in N1.
    pose proof (none_now W cap pol async debug Hwf _ _ _ _ _ _ _ Hr0 HC0 Hs Hx) as (_ & N3 & _).
    pose proof (none_all W cap pol async debug Hwf _ _ Hr0 HC0 Hp0 N1 N3) as Ht.
    change (received (OnRing e :: es0)) with (received es0). rewrite (received_run _ _ _ _ _ _ _ Hr0).
    rewrite (RingFacts.fifo_list W cap pol Hwf _ ltac:(eexists; exact (crun_ring _ _ _ _ _ _ Hr0)) HC0). rewrite Ht.
    destruct He as [->|[->|[v ->]]]; reflexivity.
  Qed.
  Lemma none_forever es s es2 r es1 r0 : crun es s -> ring_calm W cap es -> es = es2 ++ Recvd r :: es1 -> In (Recvd r0) es1 -> r0 = RecvNone \/ r0 = RecvClosed ->
    r = RecvNone \/ r = RecvClosed \/ r = RecvEmpty.
  Proof.
    intros Hr HC E Hin Hx. destruct (result_cut _ _ _ _ _ Hr HC E) as (es0 & s0 & a & s1 & h & e & Hr0 & Hs & -> & HC0 & HC1 & He).
    destruct Hin as [Hin|Hin]; [discriminate|].
    assert (HO : over es0 s0) by (apply (over_run W cap pol async debug Hwf _ _ Hr0 HC0); eauto).
    eapply (over_results W cap pol async debug Hwf); [exact Hr0| |exact HO|exact Hs]; exact HC1.
  Qed.
  Lemma never_waits es s es3 r es2 h w es1 : crun es s -> ring_calm W cap es -> es = es3 ++ Recvd r :: es2 ++ Recving h w :: es1 -> disconnected es1 -> r <> RecvPending.
  Proof.
    intros Hr HC E HD ->. destruct (result_cut _ _ _ _ _ Hr HC E) as (es0 & s0 & a & s1 & h' & e & Hr0 & Hs & E2 & HC0 & HC1 & He).
    destruct es2 as [|x es2]; [discriminate E2|]. injection E2 as -> E2.
    destruct (quit_run W cap pol async debug Hwf _ _ Hr0 HC0 es2 h w es1 (eq_sym E2) HD) as [Q _].
    destruct (recvd_step _ _ _ _ _ _ _ _ _ _ _ Hs) as (h2 & k & e2 & spur & _ & El & _ & E1 & _ & R). injection El as <-. rewrite E1 in Q.
    destruct e; try contradiction; [destruct R as (_ & R & _); discriminate| |destruct R as (_ & R & _); destruct k; discriminate].
    destruct R as (_ & R). destruct k; try contradiction; destruct R as (R & _); discriminate.
  Qed.
  Lemma pending_true es s es2 es1 : crun es s -> ring_calm W cap es -> es = es2 ++ Recvd RecvPending :: es1 ->
    exists h w es0, es1 = OnRing (RetEmpty h) :: es0 /\ receiving es0 = Some (h, Some w) /\ rechecked h w es0.
  Proof.
    intros Hr HC E. destruct (result_cut _ _ _ _ _ Hr HC E) as (es0 & s0 & a & s1 & h' & e & Hr0 & Hs & E2 & HC0 & HC1 & He).
    destruct (pending_checked W cap pol async debug Hwf _ _ _ _ _ _ Hr0 HC0 Hs) as (h & w & R1 & R2 & R3). injection R2 as ->. eauto 6.
  Qed.
  (** Every message received is the next one in order. *)
  Lemma received_order es s : crun es s -> ring_calm W cap es -> map Some (received es) = map (committed (ring_of es)) (seq 0 (length (received es))).
  Proof.
    intros Hr HC. rewrite (received_run _ _ _ _ _ _ _ Hr), RingFacts.taken_length.
    exact (RingFacts.fifo_list W cap pol Hwf _ ltac:(eexists; exact (crun_ring _ _ _ _ _ _ Hr)) HC).
  Qed.
  Lemma none_got_all es s es2 r es1 : crun es s -> ring_calm W cap es -> no_user_panic es -> es = es2 ++ Recvd r :: es1 -> r = RecvNone \/ r = RecvClosed ->
    forall i v, In (OnRing (Commit i v)) es1 -> In v (received es1).
  Proof.
    intros Hr HC Hp E Hx i v Hin. pose proof (none_drained _ _ _ _ _ Hr HC Hp E Hx) as Hd. apply in_ring in Hin.
    assert (Hc : ring_calm W cap es1) by (apply (calm_tail W cap (es2 ++ [Recvd r])); rewrite <- app_assoc; now rewrite E in HC).
    assert (Hh : ring_history W cap pol (ring_of es1)).
    { apply (RingFacts.run_suffix W cap pol (ring_of es2)). exists (ch_ring s). pose proof (crun_ring _ _ _ _ _ _ Hr) as H. rewrite E, ring_of_app in H. exact H. }
    destruct (commit_place W cap pol Hwf _ _ _ Hh Hc Hin) as (p & Hlt & Hv).
    assert (H : In (Some v) (map Some (received es1))) by (rewrite Hd, <- Hv; apply in_map, in_seq; lia).
    apply in_map_iff in H. destruct H as (x & Hx1 & Hx2). congruence.
  Qed.
End Results.
