(** What the channel needs to know about the ring at the very moment of a step. *)
From Coq Require Import List Bool Arith NArith Lia.
From Coq Require Import ZifyN ZifyNat ZifyBool.
From Verif Require Import Word QueueSpec History HistoryFacts CoreModel CoreArith CoreInv CoreStep RingSpec RingFacts.
Import ListNotations.

Section Now.
  Context {T : Type}.
  Variables (W : N) (cap : nat) (pol : policy T).
  Hypothesis Hwf : wf W cap.
  Notation P := (core_new W (N.of_nat cap)).
  Notation event := (event T).
  Notation B := (slack W cap).
  Notation fresh := (fresh_pos W cap).
  Notation explains := (explains cap fresh (new_element pol) (recycle pol)).
  Notation hist_ok := (hist_ok (T := T) cap).
  Notation Inv := (Inv W cap).
  Notation enc := (enc W cap).

  Lemma good_now es s : run P pol es s -> calm B es ->
    exists q hist g, Inv s es (q :: hist) q g /\ hist_ok es q.
  Proof.
    intros Hr HC. destruct (run_good _ _ _ Hwf _ _ Hr HC) as (q & hist & g & HI & HE).
    exists q, hist, g. split; [exact HI|]. eapply explains_hist; eauto.
  Qed.

  (** Full is returned at a moment when the queue is full. *)
  Lemma full_now es s i spur s' : run P pol es s -> calm B es ->
    step P pol s (AStep i spur) = Some (s', Some (RetFull i)) -> occupancy es = cap.
  Proof.
    intros Hr HC Hs. destruct (good_now _ _ Hr HC) as (q & hist & g & [HS HA] & HO).
    specialize (HA i). cbn [step] in Hs. destruct (stepping (st_agents s i)) eqn:Est; [|discriminate].
    destruct (cstep P pol (st_core s) i (st_agents s i) spur) as [[c p] o] eqn:Hc. injection Hs as _ ->.
    destruct (st_agents s i) eqn:E; try discriminate Est; cbn [cstep] in Hc; unfold push_top in Hc;
      try (repeat match type of Hc with
           | context [match ?x with _ => _ end] =>
               lazymatch x with context [match _ with _ => _ end] => fail | _ => destruct x eqn:? end
           end; congruence).
    destruct HA as (Et & Hle & Hcnt & Hsaw & Hpend).
    rewrite (i_head _ _ _ _ _ _ HS), (wadd_gen _ _ Hwf) in Hc.
    destruct (N.eqb_spec (enc (qtaken q + cap)) tail) as [Eq|Neq]; [|discriminate Hc].
    rewrite Et in Eq. pose proof (i_order _ _ _ _ _ _ HS).
    destruct (calm_use _ _ _ _ HC Hpend) as [Hc1 _]. pose proof (slack_span _ _ Hwf).
    assert (Hg : g i = qtaken q + cap) by (eapply (enc_inj _ _ Hwf); [symmetry; exact Eq|lia|lia]).
    unfold occupancy. rewrite <- (h_res _ _ _ HO), <- (h_take _ _ _ HO). lia.
  Qed.

  (** Finding the head's slot in the state of an unwritten element means that the
      front of the queue is not complete. *)
  Lemma blocked_now es s i spur s' h b b' : run P pol es s -> calm B es -> st_agents s i = QState h b ->
    step P pol s (AStep i spur) = Some (s', None) -> st_agents s' i = QTail h b' ->
    committed es (count is_take es) = None.
  Proof.
    intros Hr HC E Hs E'. destruct (good_now _ _ Hr HC) as (q & hist & g & [HS HA] & HO).
    specialize (HA i). rewrite E in HA. destruct HA as (Et & Hle & Hcnt & Hpend).
    cbn [step] in Hs. rewrite E in Hs. cbn [stepping cstep] in Hs.
    rewrite Et, (idx_gen_enc _ _ Hwf), (i_len _ _ _ _ _ _ HS) in Hs.
    assert (Hlt : (ifield cap (g i) <? N.of_nat cap)%N = true) by (apply N.ltb_lt, (ifield_lt W); auto).
    rewrite Hlt in Hs.
    destruct (N.eqb_spec (s_state (c_slots (st_core s) (ifield cap (g i)))) (enc (g i) + 1)) as [Eq|Neq];
      [injection Hs as <-; cbn [st_agents] in E'; rewrite upd_same in E'; discriminate|].
    destruct (N.eqb_spec (s_state (c_slots (st_core s) (ifield cap (g i)))) (enc (g i))) as [Eq2|Neq2];
      [|injection Hs as <-; cbn [st_agents] in E'; rewrite upd_same in E'; discriminate].
    destruct (calm_use _ _ _ _ HC Hpend) as [_ Hc1].
    destruct (head_slot_blocked _ _ Hwf _ _ _ _ HS (g i)) as [Hg0 Hnf]; auto; [lia|].
    rewrite <- (h_take _ _ _ HO).
    destruct (nth_error (qlog q) (qtaken q)) as [e|] eqn:Hn.
    - pose proof (h_entry _ _ _ HO _ _ Hn) as He. pose proof (h_done _ _ _ HO _ _ Hn) as Hd.
      destruct e as [j|j v|v|j v|v]; simpl in He, Hd; try tauto; try lia.
      exfalso. apply Hnf. now exists v.
    - apply (h_committed_none _ _ _ HO). now apply nth_error_None.
  Qed.

  (** A pop that nobody overtook returns Empty or Closed by what is true now. *)
  Lemma tail_now es s i spur s' e : run P pol es s -> calm B es -> count_since is_take i es = 0 ->
    step P pol s (AStep i spur) = Some (s', Some e) ->
    (e = RetEmpty i -> closed_in es = false \/ count is_take es < count is_reserve es) /\
    (e = RetPopClosed i -> closed_in es = true /\ count is_take es = count is_reserve es).
  Proof.
    intros Hr HC H0 Hs. destruct (good_now _ _ Hr HC) as (q & hist & g & [HS HA] & HO).
    specialize (HA i). cbn [step] in Hs. destruct (stepping (st_agents s i)) eqn:Est; [|discriminate].
    destruct (cstep P pol (st_core s) i (st_agents s i) spur) as [[c p] o] eqn:Hc. injection Hs as _ ->.
    destruct (st_agents s i) eqn:E; try discriminate Est; cbn [cstep] in Hc; unfold push_top in Hc;
      try (repeat match type of Hc with
           | context [match ?x with _ => _ end] =>
               lazymatch x with context [match _ with _ => _ end] => fail | _ => destruct x eqn:? end
           end; split; intros ->; discriminate Hc).
    destruct HA as [(Et & Hle & Hcnt & Hpend) _].
    rewrite (i_tail _ _ _ _ _ _ HS), (unclosed_word _ _ Hwf), (closed_test _ _ Hwf) in Hc.
    rewrite <- (h_res _ _ _ HO), <- (h_take _ _ _ HO), <- (h_closed _ _ _ HO).
    pose proof (i_order _ _ _ _ _ _ HS). destruct (calm_use _ _ _ _ HC Hpend) as [_ Hc1]. pose proof (slack_span _ _ Hwf).
    assert (Hg : g i = qtaken q) by lia.
    destruct (N.eqb_spec (enc (length (qlog q))) head) as [Eq|Neq].
    - rewrite Et in Eq. assert (Hl : g i = length (qlog q)) by (eapply (enc_inj _ _ Hwf); [symmetry; exact Eq|lia|lia]).
      destruct (qclosed q); injection Hc as _ _ <-; split; intros Ee; try discriminate Ee; auto. split; [reflexivity|lia].
    - destruct (done_spinning b); [|split; intros ->; discriminate Hc]. injection Hc as _ _ <-. split; intros Ee; try discriminate Ee.
      right. destruct (Nat.eq_dec (length (qlog q)) (g i)) as [El|]; [|lia]. exfalso. apply Neq. rewrite Et. congruence.
  Qed.

  (** An empty queue has no front. *)
  Lemma empty_front es s : run P pol es s -> calm B es -> count is_reserve es <= count is_take es ->
    committed es (count is_take es) = None.
  Proof.
    intros Hr HC Hle. destruct (good_now _ _ Hr HC) as (q & hist & g & _ & HO).
    apply (h_committed_none _ _ _ HO). rewrite (h_res _ _ _ HO). lia.
  Qed.

  (** When nobody is in the middle of a push, every element is complete. *)
  Definition mid_push (p : pc) : bool := match p with PInit _ | PHold _ | PDead _ => true | _ => false end.
  Lemma front_complete es s : run P pol es s -> calm B es -> (forall i, mid_push (st_agents s i) = false) ->
    count is_take es < count is_reserve es -> exists v, committed es (count is_take es) = Some v.
  Proof.
    intros Hr HC Hid Hlt. destruct (good_now _ _ Hr HC) as (q & hist & g & [HS HA] & HO).
    rewrite <- (h_take _ _ _ HO) in *. rewrite <- (h_res _ _ _ HO) in Hlt.
    destruct (nth_error (qlog q) (qtaken q)) as [e|] eqn:Hn; [|apply nth_error_None in Hn; lia].
    pose proof (h_entry _ _ _ HO _ _ Hn) as He. pose proof (h_done _ _ _ HO _ _ Hn) as Hd.
    assert (L : length (qlog q) <= qtaken q + cap) by apply (h_order _ _ _ HO).
    pose proof (i_slot _ _ _ _ _ _ HS _ _ Hn L) as Hsl.
    destruct e as [j|j v|v|j v|v]; simpl in He, Hd; try lia.
    - simpl in Hsl. specialize (Hid j). destruct Hsl as (_ & _ & [E|E] & _); rewrite E in Hid; discriminate.
    - simpl in Hsl. specialize (Hid j). destruct Hsl as (_ & _ & E & _); rewrite E in Hid; discriminate.
    - eauto.
  Qed.

  Lemma counts_now es s : run P pol es s -> calm B es -> count is_take es <= count is_reserve es <= count is_take es + cap.
  Proof.
    intros Hr HC. destruct (good_now _ _ Hr HC) as (q & hist & g & _ & HO).
    rewrite <- (h_take _ _ _ HO), <- (h_res _ _ _ HO). apply (h_order _ _ _ HO).
  Qed.
End Now.
