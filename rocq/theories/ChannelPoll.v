(** The receiver's calls when nobody else runs. *)
From Coq Require Import List Bool Arith NArith Lia.
From Coq Require Import ZifyN ZifyNat ZifyBool.
From Verif Require CoreInv CoreStep RingFacts.
From Verif Require Import CoreArith RingSpec SoloSpec SeqModel SoloFacts.
From Verif Require Import QueueSpec CoreModel WaitCellModel.
From Verif Require WaitCellSpec WaitCellFacts WaitCellTheorems WaitQueueModel.
From Verif Require Import ChannelModel ChannelSpec ChannelFacts ChannelLink ChannelEvents ChannelRing ChannelSend ChannelRecv ChannelProgress PollSpec.
From Verif Require Import History.
Import ListNotations.

Section Poll.
  Context {T : Type}.
  Variables (W : N) (cap : nat) (pol : policy T) (async debug : bool).
  Hypothesis Hwf : wf W cap.
  Notation P := (core_new W (N.of_nat cap)).
  Notation cstep_sys := (@cstep_sys T P pol async debug).
  Notation crun := (@crun T P pol async debug).
  Notation rx_alone := (rx_alone P pol async debug).
  Local Arguments drop_id : simpl never.

  (** ** The word-size condition while nothing is pushed or popped *)
  Lemma calm_quiet e (es : list (event T)) : calm (slack W cap) es -> is_reserve e = false -> is_take e = false -> calm (slack W cap) (e :: es).
  Proof.
    intros HC Hr Ht. split; [exact HC|]. intros i [o Hp]. cbn [find] in Hp.
    assert (H0 : (0 < slack W cap)%N) by (unfold slack; pose proof (CoreArith.ngen_ge2 _ _ Hwf); destruct Hwf; nia).
    cbn [count_since]. rewrite Hr, Ht. destruct (is_invoke i e) eqn:Ei; [split; exact H0|].
    destruct (Nat.eqb i (agent_of e)) eqn:Ea.
    - injection Hp as ->. cbn in Ei. now rewrite Nat.eqb_refl in Ei.
    - apply (CoreStep.calm_use W cap i es HC). now exists o.
  Qed.

  (** ** Running alone *)
  Definition returns (k : nat) (s : @chan T) (es : list (cevent T)) : Prop :=
    exists s' es' r, rx_alone k s es = Some (s', Recvd r :: es').
  Lemma alone_mono k : forall k' s es r, k <= k' -> rx_alone k s es = Some r -> rx_alone k' s es = Some r.
  Proof.
    induction k as [|k IH]; intros [|k'] s es r Hle H; cbn [PollSpec.rx_alone] in *; try lia; try assumption.
    - destruct (rx_free s); [exact H|discriminate].
    - destruct (rx_free s); [exact H|]. destruct (cstep_sys s (CRx false)) as [[s1 l]|]; [|discriminate]. apply IH; [lia|exact H].
  Qed.
  Lemma returns_mono k k' s es : k <= k' -> returns k s es -> returns k' s es.
  Proof. intros Hle (s' & es' & r & H). exists s', es', r. exact (alone_mono _ _ _ _ _ Hle H). Qed.
  Lemma returns_step k s es s' l : rx_free s = false -> cstep_sys s (CRx false) = Some (s', l) -> returns k s' (l ++ es) -> returns (S k) s es.
  Proof. intros Hf Hs (s2 & es2 & r & H). exists s2, es2, r. cbn [PollSpec.rx_alone]. rewrite Hf, Hs. exact H. Qed.
  Lemma returns_end k s es s' r l : rx_free s = false -> cstep_sys s (CRx false) = Some (s', Recvd r :: l) -> rx_free s' = true -> returns (S k) s es.
  Proof.
    intros Hf Hs Hf'. exists s', (l ++ es), r. cbn [PollSpec.rx_alone]. rewrite Hf, Hs.
    destruct k; cbn [PollSpec.rx_alone]; rewrite Hf'; reflexivity.
  Qed.

  (** ** One step of a pop *)
  Lemma pop_own r h r' e : step P pol r (AStep h false) = Some (r', e) -> in_pop (st_agents r h) = true ->
    (forall j, j <> h -> st_agents r' j = st_agents r j) /\
    ((in_pop (st_agents r' h) = true /\ e = None /\ st_core r' = st_core r) \/
     (st_agents r' h = Idle /\ (e = Some (RetEmpty h) \/ e = Some (RetPopClosed h)) /\ st_core r' = st_core r) \/
     (exists x v, st_agents r' h = QHold x /\ e = Some (Take h v)) \/
     e = Some (UB h)).
  Proof.
    intros Hs Hin. cbn [step] in Hs. destruct (stepping (st_agents r h)) eqn:Est; [|discriminate].
    destruct (st_agents r h) eqn:E; try discriminate Hin; unfold cstep, idx_gen in Hs;
      repeat match type of Hs with
      | context [match ?x with _ => _ end] =>
          lazymatch x with context [match _ with _ => _ end] => fail | _ => destruct x eqn:? end
      end; try injection Hs as <- <-; cbn [st_agents st_core];
      (split; [intros j Hj; unfold upd; now rewrite (proj2 (Nat.eqb_neq j h) Hj)|]);
      unfold upd; rewrite ?Nat.eqb_refl; eauto 10.
  Qed.

  Lemma unheld_kept (s : @chan T) r' h : front_unheld P s -> st_core r' = st_core (ch_ring s) ->
    (forall j, j <> h -> st_agents r' j = st_agents (ch_ring s) j) -> pop_handle (st_agents r' h) = None ->
    forall s', ch_ring s' = r' -> front_unheld P s'.
  Proof.
    intros Hu Hc Ho Hh s' Es j. rewrite Es, Hc. destruct (Nat.eq_dec j h) as [->|Hj]; [rewrite Hh; discriminate|].
    rewrite (Ho j Hj). apply Hu.
  Qed.

  Lemma in_pop_now es s h k : crun es s -> ring_calm W cap es -> ch_rx s = RPop h k -> in_pop (st_agents (ch_ring s) h) = true.
  Proof.
    intros Hr HC E. pose proof (rx_popping _ _ _ (link_run _ _ _ _ _ _ Hr) E) as Hp.
    pose proof (no_crash W cap pol async debug Hwf _ _ h Hr HC) as Hn.
    destruct (st_agents (ch_ring s) h); try discriminate Hp; try reflexivity. congruence.
  Qed.

  Lemma pop_phase m h k n : forall s es r' res', crun es s -> ring_calm W cap es -> ch_rx s = RPop h k -> front_unheld P s ->
    call P pol n (ch_ring s) (ring_of es) h = Some (r', res') ->
    (forall w s' es', k = KFirst w -> crun es' s' -> ring_calm W cap es' -> ch_rx s' = RCall h w -> ch_cell s' = ch_cell s ->
       front_unheld P s' -> returns m s' es') ->
    returns (n + m) s es.
  Proof.
    induction n as [|n IH]; intros s es r' res' Hr HC E Hu Hc Hk;
      pose proof (in_pop_now _ _ _ _ Hr HC E) as Hin;
      assert (Hst : stepping (st_agents (ch_ring s) h) = true) by (destruct (st_agents (ch_ring s) h); try discriminate Hin; reflexivity);
      cbn [call] in Hc; rewrite Hst in Hc; [discriminate|].
    destruct (ring_steps W cap pol (ch_ring s) h false Hst) as (r1 & e & Hs). rewrite Hs in Hc.
    assert (Hf : rx_free s = false) by (unfold rx_free; now rewrite E).
    destruct (pop_own _ _ _ _ Hs Hin) as [Ho Hcase].
    assert (Hstep : exists s' l, cstep_sys s (CRx false) = Some (s', l) /\
      (s', l) = let '(s2, l2) := (match pop_ret e with
          | Some (PopMsg v) => (on_refs (on_rx (on_ring s r1) RIdle) (h :: ch_refs s), [Recvd (RecvMsg h v)])
          | Some PopClosed => (on_rx (on_ring s r1) RIdle, [Recvd (match k with KTry => RecvClosed | _ => RecvNone end)])
          | Some PopEmpty =>
              match k with
              | KTry => (on_rx (on_ring s r1) RIdle, [Recvd RecvEmpty])
              | KFirst w => (on_rx (on_ring s r1) (RCall h w), [])
              | KAgain w => (on_rx (on_ring s r1) (RPark w), [Recvd RecvPending])
              | KLast => (on_rx (on_ring s r1) RIdle, [Recvd RecvNone])
              end
          | None => (on_ring s r1, [])
          end) in (s2, l2 ++ map OnRing (olist e))).
    { cbn [ChannelModel.cstep_sys]. unfold rx_step. rewrite E. unfold ring_do. rewrite Hs. cbn [ch_refs on_ring].
      destruct (match pop_ret e with Some _ => _ | None => _ end) as [s2 l2]. eauto. }
    destruct Hstep as (s' & l & Hcs & El). pose proof (crun_step _ _ _ _ _ _ _ _ _ Hr Hcs) as Hr'.
    destruct Hcase as [(Hin' & -> & Hco)|[(Hid & He & Hco)|[(x & v & Hq & ->)| ->]]].
    - injection El as -> ->. apply (returns_step _ _ _ _ _ Hf Hcs). cbn [map olist app] in *.
      apply (IH _ _ r' res' Hr' HC E); [|exact Hc|exact Hk].
      apply (unheld_kept s r1 h Hu Hco Ho); [destruct (st_agents r1 h); try discriminate Hin'; reflexivity|reflexivity].
    - assert (HC' : ring_calm W cap (l ++ es)).
      { unfold ring_calm in *. rewrite ring_of_app.
        assert (Hl : ring_of l = olist e).
        { destruct He as [-> | ->]; cbn in El; [destruct k|]; injection El as _ ->; reflexivity. }
        rewrite Hl. destruct He as [-> | ->]; apply calm_quiet; auto. }
      cbn [plus]. destruct He as [-> | ->].
      + destruct k as [|w|w|]; cbn in El; injection El as -> ->; try (apply (returns_end _ _ _ _ _ _ Hf Hcs); reflexivity).
        apply (returns_step _ _ _ _ _ Hf Hcs). apply returns_mono with (k := m); [lia|].
        apply (Hk w); [reflexivity|exact Hr'|exact HC'|reflexivity|reflexivity|].
        apply (unheld_kept s r1 h Hu Hco Ho); [now rewrite Hid|reflexivity].
      + cbn in El. injection El as -> ->. apply (returns_end _ _ _ _ _ _ Hf Hcs). reflexivity.
    - cbn in El. injection El as -> ->. cbn [plus]. apply (returns_end _ _ _ _ _ _ Hf Hcs). reflexivity.
    - exfalso. cbn in El. injection El as -> ->.
      apply (no_ring_ub W cap pol async debug Hwf _ _ h Hr'); [|cbn; now left].
      apply calm_quiet; auto.
  Qed.

  Definition on_empty (m h : nat) (k : rstage) (c : wsys) : Prop :=
    forall w s' es', k = KFirst w -> crun es' s' -> ring_calm W cap es' -> ch_rx s' = RCall h w -> ch_cell s' = c ->
       front_unheld P s' -> returns m s' es'.
  Lemma at_pop m h k s es : crun es s -> ring_calm W cap es -> ch_rx s = RPop h k -> front_unheld P s ->
    on_empty m h k (ch_cell s) -> returns (14 + m) s es.
  Proof.
    intros Hr HC E Hu Hk.
    destruct (ret_pop W cap pol Hwf (ch_ring s) (ring_of es) h (crun_ring _ _ _ _ _ _ Hr) HC (in_pop_now _ _ _ _ Hr HC E) Hu) as (r' & res' & Hc & _).
    exact (pop_phase m h k 14 s es r' res' Hr HC E Hu Hc Hk).
  Qed.
  Lemma at_again m h k s es : crun es s -> ring_calm W cap es -> ch_rx s = RAgain h k -> front_unheld P s ->
    on_empty m h k (ch_cell s) -> returns (15 + m) s es.
  Proof.
    intros Hr HC E Hu Hk. pose proof (link_run _ _ _ _ _ _ Hr) as HK.
    destruct (K_use _ HK h ltac:(now rewrite E)) as [Hev Hni].
    assert (Hid : st_agents (ch_ring s) h = Idle) by (pose proof (proj2 (K_h _ HK h Hev) Hni) as H; now rewrite E in H).
    assert (Hs : cstep_sys s (CRx false) = Some (on_rx (on_ring s (mkS (st_core (ch_ring s)) (upd (st_agents (ch_ring s)) h QStart))) (RPop h k), [OnRing (Invoke h OpPop)])).
    { cbn [ChannelModel.cstep_sys]. unfold rx_step. rewrite E. unfold ring_do. cbn [step]. rewrite Hid. reflexivity. }
    cbn [plus]. eapply returns_step; [unfold rx_free; now rewrite E|exact Hs|].
    apply (at_pop m h k).
    - exact (crun_step _ _ _ _ _ _ _ _ _ Hr Hs).
    - unfold ring_calm. cbn. apply calm_quiet; auto.
    - reflexivity.
    - apply (unheld_kept s (mkS (st_core (ch_ring s)) (upd (st_agents (ch_ring s)) h QStart)) h Hu); cbn; auto.
      + intros j Hj. unfold upd. now rewrite (proj2 (Nat.eqb_neq j h) Hj).
      + unfold upd. now rewrite Nat.eqb_refl.
    - exact Hk.
  Qed.

  (** ** The wait cell *)
  Definition nobody (s : @chan T) : Prop := forall j, ~ in_notify s j.
  Lemma others_free es s j : crun es s -> nobody s -> j <> 0 -> WaitCellFacts.holds (ws_pc (ch_cell s) j) = false.
  Proof.
    intros Hr Hn Hj. pose proof (K_c _ (link_run _ _ _ _ _ _ Hr) j Hj) as K. specialize (Hn j). unfold in_notify in Hn.
    destruct (ws_pc (ch_cell s) j) eqn:E; try reflexivity; try (destruct (Hn I));
      destruct (ch_tx s j); cbn in K; try discriminate; destruct pan; discriminate K.
  Qed.
  Lemma word_free es s : crun es s -> nobody s -> WaitCellFacts.holds (ws_pc (ch_cell s) 0) = false ->
    (w_state (ws_cell (ch_cell s)) = 0 \/ w_state (ws_cell (ch_cell s)) = 4 \/ w_state (ws_cell (ch_cell s)) = 6)%N.
  Proof.
    intros Hr Hn H0. destruct (WaitCellFacts.l_holder _ _ (WaitCellFacts.wrun_inv _ _ _ (crun_cell _ _ _ _ _ _ Hr))) as [(h & Hh & _)|[_ H]]; [|exact H].
    destruct (Nat.eq_dec h 0) as [->|Hz]; [congruence|]. rewrite (others_free _ _ _ Hr Hn Hz) in Hh. discriminate.
  Qed.
  Lemma word_mine es s : crun es s -> WaitCellFacts.holds (ws_pc (ch_cell s) 0) = true ->
    WaitCellFacts.word_ok (w_state (ws_cell (ch_cell s))) (ws_pc (ch_cell s) 0).
  Proof.
    intros Hr H0. destruct (WaitCellFacts.l_holder _ _ (WaitCellFacts.wrun_inv _ _ _ (crun_cell _ _ _ _ _ _ Hr))) as [(h & Hh & Hw & Hu)|[H _]]; [|rewrite H in H0; discriminate].
    now rewrite (Hu 0 H0).
  Qed.
  Lemma no_pan es s : crun es s -> WaitCellFacts.pan_of (ws_pc (ch_cell s) 0) = false.
  Proof.
    intros Hr. apply (WaitCellFacts.no_panic_pcs debug (cell_of es)); [exact (crun_cell _ _ _ _ _ _ Hr)|].
    exact (proj2 (cell_use _ _ _ _ _ _ _ Hr)).
  Qed.

  (** What follows one step of wait_with. *)
  Definition after_cell (s : @chan T) (h : nat) (w : waker) (e : option wevent) : @chan T :=
    match cell_ret e with
    | Some (Got Wait) => on_rx s (RAgain h (KAgain w))
    | Some (Got Closed) => on_rx s (RAgain h KLast)
    | Some (Got Notified) => on_rx s (RAgain h (KFirst w))
    | Some Failed => on_rx s RDead
    | _ => s
    end.
  Lemma wait_step k s es h w c' p' e : crun es s -> ring_calm W cap es -> nobody s -> front_unheld P s -> ch_rx s = RWait h w ->
    wstep debug (ws_cell (ch_cell s)) 0 (ws_pc (ch_cell s) 0) = (c', p', e) -> WaitCellFacts.note_holder p' = false ->
    (forall s' es', crun es' s' -> ring_calm W cap es' -> nobody s' -> front_unheld P s' -> ws_cell (ch_cell s') = c' -> ws_pc (ch_cell s') 0 = p' ->
       ch_rx s' = ch_rx (after_cell s h w e) -> returns k s' es') ->
    returns (S k) s es.
  Proof.
    intros Hr HC Hn Hu E Hw Hp Hk. pose proof (K_c0 _ (link_run _ _ _ _ _ _ Hr)) as K0. rewrite E in K0. cbn in K0.
    set (s1 := on_cell s (mkW c' (wset (ws_pc (ch_cell s)) 0 p'))).
    assert (Hs : cstep_sys s (CRx false) = Some (after_cell s1 h w e, map OnCell (olist e))).
    { cbn [ChannelModel.cstep_sys]. unfold rx_step. rewrite E. unfold cell_do. cbn [wstep_sys].
      destruct (ws_pc (ch_cell s) 0) eqn:Ep; try discriminate K0; rewrite Hw; unfold after_cell; fold s1;
        destruct (cell_ret e) as [[[]| |]|]; reflexivity. }
    eapply returns_step; [unfold rx_free; now rewrite E|exact Hs|].
    assert (Hcell : ch_cell (after_cell s1 h w e) = mkW c' (wset (ws_pc (ch_cell s)) 0 p')) by (unfold after_cell; destruct (cell_ret e) as [[[]| |]|]; reflexivity).
    assert (Hring : ch_ring (after_cell s1 h w e) = ch_ring s) by (unfold after_cell; destruct (cell_ret e) as [[[]| |]|]; reflexivity).
    apply Hk.
    - exact (crun_step _ _ _ _ _ _ _ _ _ Hr Hs).
    - unfold ring_calm. rewrite ring_of_app. destruct e; exact HC.
    - intros j. unfold in_notify. rewrite Hcell. cbn [ws_pc]. unfold wset. destruct (Nat.eqb j 0); [|apply Hn].
      destruct p'; try discriminate Hp; tauto.
    - intros j. rewrite Hring. apply Hu.
    - now rewrite Hcell.
    - rewrite Hcell. reflexivity.
    - unfold after_cell. destruct (cell_ret e) as [[[]| |]|]; reflexivity.
  Qed.

  Lemma again_done h k s es : crun es s -> ring_calm W cap es -> front_unheld P s -> ch_rx s = RAgain h k ->
    (forall w, k <> KFirst w) -> returns 15 s es.
  Proof. intros Hr HC Hu E Hk. apply (at_again 0 h k s es Hr HC E Hu). intros w s' es' ->. destruct (Hk w eq_refl). Qed.

  Lemma at_cas1 h w v s es : crun es s -> ring_calm W cap es -> nobody s -> front_unheld P s -> ch_rx s = RWait h w ->
    ws_pc (ch_cell s) 0 = WCas1 v false -> returns 18 s es.
  Proof.
    intros Hr HC Hn Hu E Ep.
    assert (Hw : (w_state (ws_cell (ch_cell s)) = 0 \/ w_state (ws_cell (ch_cell s)) = 4 \/ w_state (ws_cell (ch_cell s)) = 6)%N)
      by (apply (word_free es s Hr Hn); now rewrite Ep).
    assert (Hcl : (w_state (ws_cell (ch_cell s)) = 4 \/ w_state (ws_cell (ch_cell s)) = 6)%N -> returns 18 s es).
    { intros H. apply (wait_step 17 s es h w (ws_cell (ch_cell s)) WIdle (Some (RetWait 0 Closed)) Hr HC Hn Hu E); [|reflexivity|].
      - rewrite Ep. cbn [wstep]. destruct H as [-> | ->]; reflexivity.
      - intros s' es' Hr' HC' Hn' Hu' _ _ E'. cbn in E'. apply returns_mono with (k := 15); [lia|].
        apply (again_done _ _ _ _ Hr' HC' Hu' E'). discriminate. }
    destruct Hw as [H0|[H4|H6]]; [|now apply Hcl; left|now apply Hcl; right]. clear Hcl.
    eapply (wait_step 17 s es h w _ (WReplace v false) None Hr HC Hn Hu E); [rewrite Ep; cbn [wstep]; rewrite H0; reflexivity|reflexivity|].
    intros s1 es1 Hr1 HC1 Hn1 Hu1 Ec1 Ep1 E1. cbn [after_cell cell_ret] in E1. rewrite E in E1.
    eapply (wait_step 16 s1 es1 h w _ (WCas2 v _ false) _ Hr1 HC1 Hn1 Hu1 E1); [rewrite Ep1; cbn [wstep]; reflexivity|reflexivity|].
    intros s2 es2 Hr2 HC2 Hn2 Hu2 Ec2 Ep2 E2. unfold after_cell in E2; cbn [cell_ret] in E2. rewrite E1 in E2.
    eapply (wait_step 15 s2 es2 h w _ WIdle (Some (RetWait 0 Wait)) Hr2 HC2 Hn2 Hu2 E2); [rewrite Ep2; cbn [wstep]; rewrite Ec2, Ec1; reflexivity|reflexivity|].
    intros s3 es3 Hr3 HC3 Hn3 Hu3 _ _ E3. cbn in E3. apply (again_done _ _ _ _ Hr3 HC3 Hu3 E3). discriminate.
  Qed.
  Lemma at_call h w s es : crun es s -> ring_calm W cap es -> nobody s -> front_unheld P s -> ch_rx s = RCall h w -> returns 19 s es.
  Proof.
    intros Hr HC Hn Hu E. pose proof (K_c0 _ (link_run _ _ _ _ _ _ Hr)) as K0. rewrite E in K0. cbn in K0.
    assert (Hs : cstep_sys s (CRx false) = Some (on_rx (on_cell s (mkW (ws_cell (ch_cell s)) (wset (ws_pc (ch_cell s)) 0 (WCas1 w false)))) (RWait h w), [OnCell (CallWait 0 w false)])).
    { cbn [ChannelModel.cstep_sys]. unfold rx_step. rewrite E. unfold cell_do. cbn [wstep_sys]. rewrite K0. reflexivity. }
    eapply returns_step; [unfold rx_free; now rewrite E|exact Hs|].
    apply (at_cas1 h w w).
    - exact (crun_step _ _ _ _ _ _ _ _ _ Hr Hs).
    - exact HC.
    - intros j. unfold in_notify. cbn. unfold wset. destruct (Nat.eqb j 0); [tauto|apply Hn].
    - exact Hu.
    - reflexivity.
    - reflexivity.
  Qed.
  Lemma at_first h w s es : crun es s -> ring_calm W cap es -> nobody s -> front_unheld P s -> ch_rx s = RAgain h (KFirst w) -> returns 34 s es.
  Proof.
    intros Hr HC Hn Hu E. apply (at_again 19 h (KFirst w) s es Hr HC E Hu).
    intros w' s' es' _ Hr' HC' E' Ec Hu'. apply (at_call h w' s' es' Hr' HC'); auto. intros j. unfold in_notify. rewrite Ec. apply Hn.
  Qed.

  Lemma at_ret h w st s es : crun es s -> ring_calm W cap es -> nobody s -> front_unheld P s -> ch_rx s = RWait h w ->
    ws_pc (ch_cell s) 0 = WRet st false -> returns 35 s es.
  Proof.
    intros Hr HC Hn Hu E Ep. eapply (wait_step 34 s es h w _ WIdle _ Hr HC Hn Hu E); [rewrite Ep; cbn [wstep]; reflexivity|reflexivity|].
    intros s1 es1 Hr1 HC1 Hn1 Hu1 _ _ E1. unfold after_cell in E1. cbn [cell_ret] in E1. destruct (contains st TX_CLOSED); cbn in E1.
    - apply returns_mono with (k := 15); [lia|]. apply (again_done _ _ _ _ Hr1 HC1 Hu1 E1). discriminate.
    - exact (at_first h w s1 es1 Hr1 HC1 Hn1 Hu1 E1).
  Qed.
  Lemma at_mine h w w' st mine s es : crun es s -> ring_calm W cap es -> nobody s -> front_unheld P s -> ch_rx s = RWait h w ->
    ws_pc (ch_cell s) 0 = WMine w' st mine false -> returns 36 s es.
  Proof.
    intros Hr HC Hn Hu E Ep. eapply (wait_step 35 s es h w _ (WRet st false) (match mine with Some v => Some (Woke 0 v) | None => None end) Hr HC Hn Hu E);
      [rewrite Ep; cbn [wstep]; rewrite andb_false_r; destruct mine; reflexivity|reflexivity|].
    intros s1 es1 Hr1 HC1 Hn1 Hu1 _ Ep1 E1. unfold after_cell in E1. destruct mine; cbn [cell_ret] in E1; rewrite E in E1; exact (at_ret h w st s1 es1 Hr1 HC1 Hn1 Hu1 E1 Ep1).
  Qed.
  Lemma at_prev h w w' st prev mine s es : crun es s -> ring_calm W cap es -> nobody s -> front_unheld P s -> ch_rx s = RWait h w ->
    ws_pc (ch_cell s) 0 = WPrev w' st prev mine false -> returns 37 s es.
  Proof.
    intros Hr HC Hn Hu E Ep. eapply (wait_step 36 s es h w _ (WMine w' st mine false) (match prev with Some v => Some (Woke 0 v) | None => None end) Hr HC Hn Hu E);
      [rewrite Ep; cbn [wstep]; destruct prev; reflexivity|reflexivity|].
    intros s1 es1 Hr1 HC1 Hn1 Hu1 _ Ep1 E1. unfold after_cell in E1. destruct prev; cbn [cell_ret] in E1; rewrite E in E1; exact (at_mine h w _ _ _ s1 es1 Hr1 HC1 Hn1 Hu1 E1 Ep1).
  Qed.
  Lemma at_and h w w' a prev mine s es : crun es s -> ring_calm W cap es -> nobody s -> front_unheld P s -> ch_rx s = RWait h w ->
    ws_pc (ch_cell s) 0 = WAnd w' a prev mine false -> returns 38 s es.
  Proof.
    intros Hr HC Hn Hu E Ep. pose proof (word_mine es s Hr ltac:(now rewrite Ep)) as Hw. rewrite Ep in Hw. cbn in Hw.
    eapply (wait_step 37 s es h w _ (WPrev w' (w_state (ws_cell (ch_cell s))) prev mine false) None Hr HC Hn Hu E).
    - rewrite Ep. cbn [wstep].
      replace (negb ((w_state (ws_cell (ch_cell s)) =? a) || (w_state (ws_cell (ch_cell s)) =? N.lor a TX_CLOSED)))%N with false; [rewrite andb_false_r; reflexivity|].
      destruct Hw as [[-> [-> | ->]]|[-> ->]]; reflexivity.
    - reflexivity.
    - intros s1 es1 Hr1 HC1 Hn1 Hu1 _ Ep1 E1. cbn in E1. rewrite E in E1. exact (at_prev h w _ _ _ _ s1 es1 Hr1 HC1 Hn1 Hu1 E1 Ep1).
  Qed.
  Lemma at_take h w w' a prev s es : crun es s -> ring_calm W cap es -> nobody s -> front_unheld P s -> ch_rx s = RWait h w ->
    ws_pc (ch_cell s) 0 = WTake w' a prev false -> returns 39 s es.
  Proof.
    intros Hr HC Hn Hu E Ep. eapply (wait_step 38 s es h w _ (WAnd w' a prev _ false) None Hr HC Hn Hu E); [rewrite Ep; cbn [wstep]; reflexivity|reflexivity|].
    intros s1 es1 Hr1 HC1 Hn1 Hu1 _ Ep1 E1. cbn in E1. rewrite E in E1. exact (at_and h w _ _ _ _ s1 es1 Hr1 HC1 Hn1 Hu1 E1 Ep1).
  Qed.
  Lemma at_cas2 h w w' prev s es : crun es s -> ring_calm W cap es -> nobody s -> front_unheld P s -> ch_rx s = RWait h w ->
    ws_pc (ch_cell s) 0 = WCas2 w' prev false -> returns 40 s es.
  Proof.
    intros Hr HC Hn Hu E Ep. destruct (w_state (ws_cell (ch_cell s)) =? PARKING)%N eqn:Ew.
    - eapply (wait_step 39 s es h w _ WIdle (Some (RetWait 0 Wait)) Hr HC Hn Hu E); [rewrite Ep; cbn [wstep]; rewrite Ew; reflexivity|reflexivity|].
      intros s1 es1 Hr1 HC1 Hn1 Hu1 _ _ E1. cbn in E1. apply returns_mono with (k := 15); [lia|]. apply (again_done _ _ _ _ Hr1 HC1 Hu1 E1). discriminate.
    - eapply (wait_step 39 s es h w _ (WTake w' _ prev false) None Hr HC Hn Hu E); [rewrite Ep; cbn [wstep]; rewrite Ew; reflexivity|reflexivity|].
      intros s1 es1 Hr1 HC1 Hn1 Hu1 _ Ep1 E1. cbn in E1. rewrite E in E1. exact (at_take h w _ _ _ s1 es1 Hr1 HC1 Hn1 Hu1 E1 Ep1).
  Qed.
  Lemma at_wait h w s es : crun es s -> ring_calm W cap es -> nobody s -> front_unheld P s -> ch_rx s = RWait h w -> returns 41 s es.
  Proof.
    intros Hr HC Hn Hu E. pose proof (K_c0 _ (link_run _ _ _ _ _ _ Hr)) as K0. rewrite E in K0. cbn in K0.
    pose proof (no_pan es s Hr) as Hp.
    destruct (ws_pc (ch_cell s) 0) as [|v b|v b|v b|v prev b|v a prev b|v a prev mine b|v st prev mine b|v st mine b|st b|c| |o|v|b] eqn:Ep; try discriminate K0; cbn in Hp; subst.
    - apply returns_mono with (k := 18); [lia|].
      exact (at_cas1 h w v s es Hr HC Hn Hu E Ep).
    - apply returns_mono with (k := 36); [lia|]. eapply (wait_step 35 s es h w _ (WRet NOTIFYING false) _ Hr HC Hn Hu E); [rewrite Ep; cbn [wstep]; reflexivity|reflexivity|].
      intros s1 es1 Hr1 HC1 Hn1 Hu1 _ Ep1 E1. cbn in E1. rewrite E in E1. exact (at_ret h w _ s1 es1 Hr1 HC1 Hn1 Hu1 E1 Ep1).
    - eapply (wait_step 40 s es h w _ (WCas2 v _ false) _ Hr HC Hn Hu E); [rewrite Ep; cbn [wstep]; reflexivity|reflexivity|].
      intros s1 es1 Hr1 HC1 Hn1 Hu1 _ Ep1 E1. cbn in E1. rewrite E in E1. exact (at_cas2 h w _ _ s1 es1 Hr1 HC1 Hn1 Hu1 E1 Ep1).
    - apply returns_mono with (k := 40); [lia|]. exact (at_cas2 h w _ _ s es Hr HC Hn Hu E Ep).
    - apply returns_mono with (k := 39); [lia|]. exact (at_take h w _ _ _ s es Hr HC Hn Hu E Ep).
    - apply returns_mono with (k := 38); [lia|]. exact (at_and h w _ _ _ _ s es Hr HC Hn Hu E Ep).
    - apply returns_mono with (k := 37); [lia|]. exact (at_prev h w _ _ _ _ s es Hr HC Hn Hu E Ep).
    - apply returns_mono with (k := 36); [lia|]. exact (at_mine h w _ _ _ s es Hr HC Hn Hu E Ep).
    - apply returns_mono with (k := 35); [lia|]. exact (at_ret h w _ s es Hr HC Hn Hu E Ep).
  Qed.

  Lemma poll_returns s es : crun es s -> ring_calm W cap es -> in_recv (ch_rx s) = true -> nobody s -> front_unheld P s -> returns 41 s es.
  Proof.
    intros Hr HC Hin Hn Hu.
    assert (Hk : forall h k, on_empty 19 h k (ch_cell s)).
    { intros h k w s' es' _ Hr' HC' E' Ec Hu'. apply (at_call h w s' es' Hr' HC'); auto. intros j. unfold in_notify. rewrite Ec. apply Hn. }
    destruct (ch_rx s) as [|h k|h k|h w|h w|w| | |pan| | | |] eqn:E; try discriminate Hin.
    - apply returns_mono with (k := 34); [lia|]. exact (at_again 19 h k s es Hr HC E Hu (Hk h k)).
    - apply returns_mono with (k := 33); [lia|]. exact (at_pop 19 h k s es Hr HC E Hu (Hk h k)).
    - apply returns_mono with (k := 19); [lia|]. exact (at_call h w s es Hr HC Hn Hu E).
    - exact (at_wait h w s es Hr HC Hn Hu E).
  Qed.

  (** ** A receiver that goes round in circles *)
  Lemma cas_now es s i h b : run P pol es s -> calm (slack W cap) es -> count_since is_take i es = 0 -> st_agents s i = QCas h b ->
    committed es (count is_take es) <> None.
  Proof.
    intros Hr HC H0 E. destruct (good_now W cap pol Hwf _ _ Hr HC) as (q & hist & g & [HS HA] & HO).
    specialize (HA i). rewrite E in HA. destruct HA as [(Et & Hle & Hcnt & Hpend) Hrd].
    destruct (Hrd ltac:(lia)) as [v Hv]. rewrite <- (HistoryFacts.h_take _ _ _ HO).
    pose proof (HistoryFacts.h_entry _ _ _ HO _ _ Hv) as He. cbn in He. congruence.
  Qed.

  (** There is nothing to receive, and the queue is not closed and drained. *)
  Definition nothing (es : list (cevent T)) : Prop :=
    committed (ring_of es) (count is_take (ring_of es)) = None /\
    (History.closed_in (ring_of es) = false \/ count is_take (ring_of es) < count is_reserve (ring_of es)).

  Definition circling (h : nat) (w : waker) (s : @chan T) (es : list (cevent T)) : Prop :=
    w_state (ws_cell (ch_cell s)) = NOTIFYING /\ nothing es /\
    ((ch_rx s = RAgain h (KFirst w)) \/
     (ch_rx s = RPop h (KFirst w) /\ count_since is_take h (ring_of es) = 0) \/
     (ch_rx s = RCall h w) \/
     (ch_rx s = RWait h w /\ match ws_pc (ch_cell s) 0 with WCas1 _ false | WSelf _ false => True | WRet st false => st = NOTIFYING | _ => False end)).

  Lemma circling_step h w s es : crun es s -> ring_calm W cap es -> circling h w s es ->
    exists s' l, cstep_sys s (CRx false) = Some (s', l) /\ ring_calm W cap (l ++ es) /\ circling h w s' (l ++ es).
  Proof.
    intros Hr HC (Hw & Hno & Hpc). pose proof (link_run _ _ _ _ _ _ Hr) as HK.
    destruct Hpc as [E|[[E H0]|[E|[E Hp]]]].
    - destruct (K_use _ HK h ltac:(now rewrite E)) as [Hev Hni].
      assert (Hid : st_agents (ch_ring s) h = Idle) by (pose proof (proj2 (K_h _ HK h Hev) Hni) as H; now rewrite E in H).
      exists (on_rx (on_ring s (mkS (st_core (ch_ring s)) (upd (st_agents (ch_ring s)) h QStart))) (RPop h (KFirst w))), [OnRing (Invoke h OpPop)].
      split; [|split].
      + cbn [ChannelModel.cstep_sys]. unfold rx_step. rewrite E. unfold ring_do. cbn [step]. rewrite Hid. reflexivity.
      + unfold ring_calm. cbn. apply calm_quiet; auto.
      + split; [exact Hw|]. split; [exact Hno|]. right. left. split; [reflexivity|]. cbn. now rewrite Nat.eqb_refl.
    - pose proof (in_pop_now _ _ _ _ Hr HC E) as Hin.
      assert (Hst : stepping (st_agents (ch_ring s) h) = true) by (destruct (st_agents (ch_ring s) h); try discriminate Hin; reflexivity).
      destruct (ring_steps W cap pol (ch_ring s) h false Hst) as (r1 & e & Hs).
      pose proof (crun_ring _ _ _ _ _ _ Hr) as Hrr.
      destruct (pop_own _ _ _ _ Hs Hin) as [_ [(_ & -> & _)|[(_ & He & _)|[(x & v & _ & ->)| ->]]]].
      + exists (on_ring s r1), []. split; [|split; [exact HC|]].
        * cbn [ChannelModel.cstep_sys]. unfold rx_step. rewrite E. unfold ring_do. rewrite Hs. reflexivity.
        * split; [exact Hw|]. split; [exact Hno|]. right. left. auto.
      + assert (e = Some (RetEmpty h)) as ->.
        { destruct He as [He|He]; [exact He|]. exfalso. subst e.
          destruct (tail_now W cap pol Hwf _ _ _ _ _ _ Hrr HC H0 Hs) as [_ Hcl]. destruct (Hcl eq_refl) as [Hc Hq].
          destruct (proj2 Hno) as [Hf|Hlt]; [congruence|lia]. }
        exists (on_rx (on_ring s r1) (RCall h w)), [OnRing (RetEmpty h)]. split; [|split].
        * cbn [ChannelModel.cstep_sys]. unfold rx_step. rewrite E. unfold ring_do. rewrite Hs. reflexivity.
        * apply calm_quiet; auto.
        * split; [exact Hw|]. split; [exact Hno|]. right. right. left. reflexivity.
      + exfalso. destruct (st_agents (ch_ring s) h) as [] eqn:Ea; try discriminate Hin.
        all: try (cbn [step] in Hs; rewrite Ea in Hs; unfold cstep, idx_gen in Hs; cbn [stepping] in Hs;
          repeat match type of Hs with
          | context [match ?x with _ => _ end] => lazymatch x with context [match _ with _ => _ end] => fail | _ => destruct x end
          end; discriminate Hs).
        exact (cas_now _ _ _ _ _ Hrr HC H0 Ea (proj1 Hno)).
      + exfalso. assert (Hcs : exists s', cstep_sys s (CRx false) = Some (s', [OnRing (UB h)])).
        { cbn [ChannelModel.cstep_sys]. unfold rx_step. rewrite E. unfold ring_do. rewrite Hs. cbn. eauto. }
        destruct Hcs as (s' & Hcs). pose proof (crun_step _ _ _ _ _ _ _ _ _ Hr Hcs) as Hr'.
        apply (no_ring_ub W cap pol async debug Hwf _ _ h Hr'); [apply calm_quiet; auto|cbn; now left].
    - pose proof (K_c0 _ HK) as K0. rewrite E in K0. cbn in K0.
      exists (on_rx (on_cell s (mkW (ws_cell (ch_cell s)) (wset (ws_pc (ch_cell s)) 0 (WCas1 w false)))) (RWait h w)), [OnCell (CallWait 0 w false)].
      split; [|split; [exact HC|]].
      + cbn [ChannelModel.cstep_sys]. unfold rx_step. rewrite E. unfold cell_do. cbn [wstep_sys]. rewrite K0. reflexivity.
      + split; [exact Hw|]. split; [exact Hno|]. right. right. right. split; [reflexivity|exact I].
    - destruct (ws_pc (ch_cell s) 0) as [|v [|]|v [|]|v b|v prev b|v a prev b|v a prev mine b|v st prev mine b|v st mine b|st [|]|c| |o|v|b] eqn:Ep; try (exfalso; exact Hp).
      + eexists _, []. split; [|split; [exact HC|]].
        * cbn [ChannelModel.cstep_sys]. unfold rx_step. rewrite E. unfold cell_do. cbn [wstep_sys]. rewrite Ep. cbn [wstep]. rewrite Hw. reflexivity.
        * split; [exact Hw|]. split; [exact Hno|]. right. right. right. split; [exact E|exact I].
      + eexists _, [OnCell (Woke 0 v)]. split; [|split; [exact HC|]].
        * cbn [ChannelModel.cstep_sys]. unfold rx_step. rewrite E. unfold cell_do. cbn [wstep_sys]. rewrite Ep. reflexivity.
        * split; [exact Hw|]. split; [exact Hno|]. right. right. right. split; [exact E|reflexivity].
      + eexists _, [OnCell (RetWait 0 Notified)]. split; [|split; [exact HC|]].
        * cbn [ChannelModel.cstep_sys]. unfold rx_step. rewrite E. unfold cell_do. cbn [wstep_sys]. rewrite Ep, Hp. reflexivity.
        * split; [exact Hw|]. split; [exact Hno|]. left. reflexivity.
  Qed.

  Lemma circling_spins h w n : forall s es, crun es s -> ring_calm W cap es -> circling h w s es -> rx_alone n s es = None.
  Proof.
    induction n as [|n IH]; intros s es Hr HC Hc.
    all: assert (Hf : rx_free s = false) by (unfold rx_free; destruct Hc as (_ & _ & [E|[[E _]|[E|[E _]]]]); now rewrite E).
    all: cbn [PollSpec.rx_alone]; rewrite Hf; try reflexivity.
    destruct (circling_step h w s es Hr HC Hc) as (s' & l & Hs & HC' & Hc'). rewrite Hs.
    apply IH; auto. exact (crun_step _ _ _ _ _ _ _ _ _ Hr Hs).
  Qed.

  (** Somebody is inside notify, the channel was not closed by the senders: the word is NOTIFYING. *)
  Lemma notify_word es s j : crun es s -> in_notify s j -> WaitCellSpec.closed_in (cell_of es) = false -> w_state (ws_cell (ch_cell s)) = NOTIFYING.
  Proof.
    intros Hr Hj Hcl. pose proof (WaitCellFacts.wrun_inv _ _ _ (crun_cell _ _ _ _ _ _ Hr)) as HL.
    rewrite <- (WaitCellFacts.l_closed _ _ HL) in Hcl. unfold in_notify in Hj.
    assert (Hh : WaitCellFacts.holds (ws_pc (ch_cell s) j) = true) by (destruct (ws_pc (ch_cell s) j); try tauto; reflexivity).
    destruct (WaitCellFacts.l_holder _ _ HL) as [(h & _ & Hw & Hu)|[H _]]; [|rewrite H in Hh; discriminate].
    rewrite <- (Hu j Hh) in Hw. destruct (ws_pc (ch_cell s) j); try tauto; destruct Hw as [Hw|Hw]; rewrite Hw in *; try reflexivity; discriminate Hcl.
  Qed.

  Lemma poll_spins es s j h w : crun es s -> ring_calm W cap es -> in_notify s j -> WaitCellSpec.closed_in (cell_of es) = false ->
    nothing es -> ch_rx s = RAgain h (KFirst w) -> forall n, rx_alone n s es = None.
  Proof.
    intros Hr HC Hj Hcl Hno E n. apply (circling_spins h w n s es Hr HC). split; [exact (notify_word _ _ _ Hr Hj Hcl)|]. auto.
  Qed.

  (** Until it calls wait_with, a try_recv needs nobody. *)
  Lemma try_returns s es h : crun es s -> ring_calm W cap es -> (ch_rx s = RAgain h KTry \/ ch_rx s = RPop h KTry) -> front_unheld P s -> returns 15 s es.
  Proof.
    intros Hr HC E Hu. assert (Hk : on_empty 0 h KTry (ch_cell s)) by (intros w s' es' Hx; discriminate Hx).
    destruct E as [E|E]; [exact (at_again 0 h KTry s es Hr HC E Hu Hk)|].
    apply returns_mono with (k := 14); [lia|]. exact (at_pop 0 h KTry s es Hr HC E Hu Hk).
  Qed.
End Poll.
