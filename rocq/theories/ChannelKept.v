(** RecvRefs that are kept use up capacity. *)
From Coq Require Import List Bool Arith NArith Lia.
From Coq Require Import ZifyN ZifyNat ZifyBool.
From Verif Require CoreInv CoreStep RingFacts.
From Verif Require Import CoreArith RingSpec SoloSpec SeqModel Solo SoloFacts.
From Verif Require Import QueueSpec CoreModel WaitCellModel HistoryFacts.
From Verif Require WaitCellSpec WaitCellFacts WaitCellTheorems WaitQueueModel.
From Verif Require Import ChannelModel ChannelSpec ChannelFacts ChannelLink ChannelEvents ChannelRing ChannelSend ChannelRecv ChannelProgress PollSpec SpinSpec ChannelPoll ChannelAlone ChannelPrompt ChannelDemo.
From Verif Require Import History.
Import ListNotations.

(** A list of different numbers below a bound. *)
Lemma nodup_window (l : list nat) a b : NoDup l -> (forall x, In x l -> a <= x < b) -> length l <= b - a.
Proof.
  intros Hn Hin. rewrite <- (seq_length (b - a) a). apply NoDup_incl_length; [exact Hn|].
  intros x Hx. apply in_seq. specialize (Hin x Hx). lia.
Qed.
Lemma nodup_window_all (l : list nat) a b : NoDup l -> (forall x, In x l -> a <= x < b) -> b - a <= length l -> forall x, a <= x < b -> In x l.
Proof.
  intros Hn Hin Hl x Hx. apply (NoDup_length_incl Hn (l' := seq a (b - a))).
  - rewrite seq_length. exact Hl.
  - intros y Hy. apply in_seq. specialize (Hin y Hy). lia.
  - apply in_seq. lia.
Qed.
Lemma nodup_map_inj {A B} (f : A -> B) l : NoDup l -> (forall x y, In x l -> In y l -> f x = f y -> x = y) -> NoDup (map f l).
Proof.
  induction 1 as [|x l Hx Hn IH]; intros Hf; cbn [map]; constructor.
  - intros H. apply in_map_iff in H. destruct H as (y & Hy & Hin). apply Hx.
    rewrite (Hf x y); [exact Hin|now left|now right|congruence].
  - apply IH. intros y z Hy Hz. apply Hf; now right.
Qed.

Section Kept.
  Context {T : Type}.
  Variables (W : N) (cap : nat) (pol : policy T) (async debug : bool).
  Hypothesis Hwf : wf W cap.
  Notation P := (core_new W (N.of_nat cap)).
  Notation cstep_sys := (@cstep_sys T P pol async debug).
  Notation crun := (@crun T P pol async debug).
  Notation csteps := (@csteps T P pol async debug).
  Notation rx_alone := (rx_alone P pol async debug).
  Notation tx_alone := (tx_alone P pol async debug).
  Local Arguments drop_id : simpl never.

  (** Where the RecvRefs are in the log. *)
  Lemma refs_held es s q hist g : crun es s -> CoreInv.Inv W cap (ch_ring s) (ring_of es) (q :: hist) q g ->
    forall h, In h (ch_refs s) ->
      pop_handle (st_agents (ch_ring s) h) = Some (ifield cap (g h)) /\ length (qlog q) - cap <= g h < qtaken q /\
      exists v, nth_error (qlog q) (g h) = Some (Held h v).
  Proof.
    intros Hr HI h Hin. pose proof (link_run _ _ _ _ _ _ Hr) as HK. pose proof (CoreInv.inv_s _ _ _ _ _ _ _ HI) as HS.
    destruct (proj1 (K_h _ HK h (proj2 (K_refs _ HK) h Hin)) Hin) as [r Hq].
    pose proof (CoreInv.inv_a _ _ _ _ _ _ _ HI h) as HA. rewrite Hq in HA. cbn in HA. destruct HA as (-> & v & Hv).
    rewrite Hq. split; [reflexivity|]. split; [|eauto].
    pose proof (CoreInv.live_in_window _ _ _ _ _ _ HS _ _ Hv ltac:(discriminate)).
    pose proof (proj2 (CoreInv.i_done _ _ _ _ _ _ HS _ _ Hv) I). lia.
  Qed.

  Lemma places_nodup es s q hist g : crun es s -> CoreInv.Inv W cap (ch_ring s) (ring_of es) (q :: hist) q g -> NoDup (map g (ch_refs s)).
  Proof.
    intros Hr HI. pose proof (link_run _ _ _ _ _ _ Hr) as HK. apply nodup_map_inj; [exact (proj1 (K_refs _ HK))|].
    intros x y Hx Hy E. destruct (refs_held _ _ _ _ _ Hr HI x Hx) as (_ & _ & v & Hv).
    destruct (refs_held _ _ _ _ _ Hr HI y Hy) as (_ & _ & u & Hu). rewrite E in Hv. congruence.
  Qed.

  Lemma kept_room es s : crun es s -> ring_calm W cap es -> length (ch_refs s) + occupancy (ring_of es) <= cap.
  Proof.
    intros Hr HC. destruct (good_now W cap pol Hwf _ _ (crun_ring _ _ _ _ _ _ Hr) HC) as (q & hist & g & HI & HO).
    pose proof (places_nodup _ _ _ _ _ Hr HI) as Hn.
    assert (Hl : length (map g (ch_refs s)) <= qtaken q - (length (qlog q) - cap)).
    { apply nodup_window; [exact Hn|]. intros x Hx. apply in_map_iff in Hx. destruct Hx as (h & <- & Hh).
      apply (refs_held _ _ _ _ _ Hr HI h Hh). }
    rewrite map_length in Hl. unfold occupancy. rewrite <- (h_res _ _ _ HO), <- (h_take _ _ _ HO).
    pose proof (h_order _ _ _ HO). unfold agent in *. lia.
  Qed.

  (** As many RecvRefs as slots: one of them is at the head, which is also the tail. *)
  Lemma all_kept es s : crun es s -> ring_calm W cap es -> cap <= length (ch_refs s) ->
    exists h, In h (ch_refs s) /\ pop_handle (st_agents (ch_ring s) h) = Some (head_index P (st_core (ch_ring s))) /\
      occupies P (st_agents (ch_ring s) h) = Some (tail_index P (st_core (ch_ring s))).
  Proof.
    intros Hr HC Hl. pose proof (kept_room _ _ Hr HC) as Hroom.
    destruct (good_now W cap pol Hwf _ _ (crun_ring _ _ _ _ _ _ Hr) HC) as (q & hist & g & HI & HO).
    pose proof (CoreInv.inv_s _ _ _ _ _ _ _ HI) as HS. pose proof (cap_pos _ _ Hwf) as Hp.
    assert (Hnq : length (qlog q) = qtaken q).
    { pose proof (h_order _ _ _ HO). unfold occupancy in Hroom. rewrite <- (h_res _ _ _ HO), <- (h_take _ _ _ HO) in Hroom. lia. }
    pose proof (places_nodup _ _ _ _ _ Hr HI) as Hn.
    assert (Hwin : forall x, In x (map g (ch_refs s)) -> length (qlog q) - cap <= x < qtaken q).
    { intros x Hx. apply in_map_iff in Hx. destruct Hx as (h & <- & Hh). apply (refs_held _ _ _ _ _ Hr HI h Hh). }
    pose proof (nodup_window _ _ _ Hn Hwin) as Hle. rewrite map_length in Hle. unfold agent in Hle.
    assert (Hin : In (qtaken q - cap) (map g (ch_refs s))).
    { apply (nodup_window_all _ _ _ Hn Hwin); [rewrite map_length; unfold agent in *; lia|lia]. }
    apply in_map_iff in Hin. destruct Hin as (h & Hg & Hh). exists h. split; [exact Hh|].
    destruct (refs_held _ _ _ _ _ Hr HI h Hh) as (Hpop & _ & _).
    assert (Hi : ifield cap (g h) = ifield cap (qtaken q)) by (rewrite Hg, <- Hnq; apply (ifld_sub W cap Hwf q); lia).
    assert (Hocc : occupies P (st_agents (ch_ring s) h) = pop_handle (st_agents (ch_ring s) h)) by (destruct (st_agents (ch_ring s) h); try discriminate Hpop; reflexivity).
    unfold head_index, tail_index. rewrite (CoreInv.i_head _ _ _ _ _ _ HS), (CoreInv.i_tail _ _ _ _ _ _ HS), (idx_gen_enc _ _ Hwf), (idx_gen_word _ _ Hwf).
    cbn [fst]. rewrite Hocc, Hpop, Hi, Hnq. auto.
  Qed.

  (** ** A pop that spins makes the receive spin *)
  Lemma pop_never h k n : forall s es res, ch_rx s = RPop h k -> popping (st_agents (ch_ring s) h) = true ->
    (forall m, call P pol m (ch_ring s) res h = None) -> rx_alone n s es = None.
  Proof.
    induction n as [|n IH]; intros s es res E Hp Hc; [cbn [PollSpec.rx_alone]; unfold rx_free; now rewrite E|].
    assert (Hst : stepping (st_agents (ch_ring s) h) = true).
    { specialize (Hc 0). cbn [call] in Hc. destruct (stepping (st_agents (ch_ring s) h)); [reflexivity|discriminate]. }
    destruct (ring_steps W cap pol (ch_ring s) h false Hst) as (r1 & e & Hs).
    assert (Hc' : forall m, call P pol m r1 (match e with Some x => x :: res | None => res end) h = None).
    { intros m. specialize (Hc (S m)). cbn [call] in Hc. rewrite Hst, Hs in Hc. exact Hc. }
    assert (Hst' : stepping (st_agents r1 h) = true).
    { specialize (Hc' 0). cbn [call] in Hc'. destruct (stepping (st_agents r1 h)); [reflexivity|discriminate]. }
    destruct (r_own _ _ _ _ _ _ _ Hs) as (_ & _ & Hown). specialize (Hown Hp).
    assert (Hcs : pop_ret e = None -> cstep_sys s (CRx false) = Some (on_ring s r1, map OnRing (olist e))).
    { intros He. cbn [ChannelModel.cstep_sys]. unfold rx_step. rewrite E. unfold ring_do. rewrite Hs, He. reflexivity. }
    destruct (pop_ret e) as [[v| |]|].
    - destruct Hown as [[r Hx] _]. rewrite Hx in Hst'. discriminate.
    - destruct Hown as [Hx _]. rewrite Hx in Hst'. discriminate.
    - destruct Hown as [Hx _]. rewrite Hx in Hst'. discriminate.
    - rewrite (rx_one W cap pol async debug _ s _ _ _ ltac:(unfold rx_free; now rewrite E) (Hcs eq_refl)). exact (IH (on_ring s r1) _ _ E Hown Hc').
  Qed.

  Lemma recv_never s es h k : crun es s -> ring_calm W cap es -> ch_rx s = RAgain h k -> cap <= length (ch_refs s) ->
    forall n, rx_alone n s es = None.
  Proof.
    intros Hr HC E Hl n. destruct (all_kept _ _ Hr HC Hl) as (j & Hj & Hpop & _).
    pose proof (link_run _ _ _ _ _ _ Hr) as HK.
    destruct (K_use _ HK h ltac:(now rewrite E)) as [Hev Hni].
    assert (Hid : st_agents (ch_ring s) h = Idle) by (pose proof (proj2 (K_h _ HK h Hev) Hni) as H; now rewrite E in H).
    assert (Hs1 : cstep_sys s (CRx false) = Some (on_rx (on_ring s (mkS (st_core (ch_ring s)) (upd (st_agents (ch_ring s)) h QStart))) (RPop h k), [OnRing (Invoke h OpPop)])).
    { cbn [ChannelModel.cstep_sys]. unfold rx_step. rewrite E. unfold ring_do. cbn [step]. rewrite Hid. reflexivity. }
    destruct n as [|n]; [cbn [PollSpec.rx_alone]; unfold rx_free; now rewrite E|].
    rewrite (rx_one W cap pol async debug _ s _ _ _ ltac:(unfold rx_free; now rewrite E) Hs1).
    pose proof (crun_step _ _ _ _ _ _ _ _ _ Hr Hs1) as Hr1. set (s1 := on_rx _ _) in *.
    apply (pop_never h k n s1 _ (ring_of ([OnRing (Invoke h OpPop)] ++ es))); [reflexivity|cbn; now rewrite CoreInv.upd_same|].
    apply (pop_spins W cap pol Hwf _ _ h j (crun_ring _ _ _ _ _ _ Hr1)).
    - exact (calm_quiet W cap Hwf (Invoke h OpPop) (ring_of es) HC eq_refl eq_refl).
    - cbn. apply CoreInv.upd_same.
    - cbn [s1 ch_ring on_rx on_ring st_core st_agents]. rewrite CoreInv.upd_other; [exact Hpop|]. intros ->. contradiction.
  Qed.

  (** ** Until one is dropped *)
  Definition no_release (es : list (event T)) : Prop := forall i v, ~ In (Release i v) es.
  Lemma one_ring s a s' l : cstep_sys s a = Some (s', l) -> ring_of l = [] \/ exists e, ring_of l = [e].
  Proof.
    intros Hs. destruct (moved_step P pol async debug _ _ _ _ Hs) as [| ? ? e ? ? ? ? E | |]; auto.
    rewrite E. destruct e; cbn [olist]; eauto.
  Qed.

  Lemma kept_dead s es : crun es s -> cap <= length (ch_refs s) -> forall l s', csteps s l s' -> ring_calm W cap (l ++ es) ->
    no_release (ring_of l) -> ch_refs s' = ch_refs s /\ count is_reserve (ring_of l) = 0 /\ count is_take (ring_of l) = 0.
  Proof.
    intros Hr Hl l s' Hst. induction Hst as [|l s1 a s2 l' Hst IH Hs]; intros HC Hno; [auto|].
    rewrite <- app_assoc in HC. pose proof (calm_tail W cap _ _ HC) as HC1.
    assert (Hno1 : no_release (ring_of l)) by (intros i v Hin; apply (Hno i v); rewrite ring_of_app; apply in_or_app; now right).
    destruct (IH HC1 Hno1) as (Er & E1 & E2). clear IH.
    pose proof (steps_run P pol async debug _ _ Hr _ _ Hst) as Hr1. pose proof (crun_step _ _ _ _ _ _ _ _ _ Hr1 Hs) as Hr2.
    pose proof (link_run _ _ _ _ _ _ Hr1) as HK. pose proof (kept_room _ _ Hr2 HC) as Hroom.
    assert (Htk : forall h v, ring_of l' <> [Take h v]).
    { intros h v E. pose proof (at_ring P pol async debug _ _ _ _ _ HK Hs E) as Q. cbn in Q. destruct Q as (_ & _ & Q & _).
      rewrite Q in Hroom. cbn [length] in Hroom. rewrite Er in Hroom. lia. }
    assert (E3 : ch_refs s2 = ch_refs s1).
    { destruct (refs_change P pol async debug _ _ _ _ HK Hs) as [H|[(h & v & H)|[(h & v & H)|(h & H)]]]; [exact H|exfalso..].
      - exact (Htk h v H).
      - apply (Hno h v). rewrite ring_of_app, H. now left.
      - apply (no_ring_ub W cap pol async debug Hwf _ _ h Hr2 HC). rewrite ring_of_app, H. now left. }
    split; [congruence|]. rewrite ring_of_app, !count_app, E1, E2.
    assert (E4 : count is_take (ring_of l') = 0).
    { destruct (one_ring _ _ _ _ Hs) as [H|[e H]]; rewrite H; [reflexivity|].
      destruct e; try reflexivity. exfalso. exact (Htk _ _ H). }
    rewrite E4. split; [|lia].
    assert (Hz : occupancy (ring_of (l' ++ l ++ es)) = 0) by (rewrite E3, Er in Hroom; lia).
    unfold occupancy in Hz. rewrite !ring_of_app, !count_app, E1, E2, E4 in Hz.
    pose proof (counts_now W cap pol Hwf _ _ (crun_ring _ _ _ _ _ _ Hr) (calm_tail W cap _ _ HC1)). lia.
  Qed.

  Lemma send_kept i w s es st : crun es s -> ring_calm W cap es -> ch_tx s i = TAgain st ->
    closed_in (ring_of es) = false -> cap <= length (ch_refs s) -> forall n, tx_alone n s es i w = None.
  Proof.
    intros Hr HC E Hcl Hl n. destruct (all_kept _ _ Hr HC Hl) as (j & Hj & _ & Hocc).
    apply (send_never W cap pol async debug Hwf i j w s es st Hr HC E Hcl); [|exact Hocc].
    pose proof (link_run _ _ _ _ _ _ Hr) as HK. destruct (tx_odd s i HK ltac:(rewrite E; discriminate)) as [Hev _].
    pose proof (proj2 (K_refs _ HK) j Hj). congruence.
  Qed.
End Kept.
