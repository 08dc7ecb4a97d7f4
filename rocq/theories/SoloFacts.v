(** When calls that run alone return, and when they spin for ever. *)
From Coq Require Import List Bool Arith NArith Lia.
From Coq Require Import ZifyN ZifyNat ZifyBool.
From Verif Require Import Word QueueSpec CoreModel CoreArith CoreInv CoreStep SeqModel SoloSpec Solo.
Import ListNotations.

Section SoloFacts.
  Context {T : Type}.
  Variables (W : N) (cap : nat) (pol : policy T).
  Hypothesis Hwf : wf W cap.
  Notation P := (core_new W (N.of_nat cap)).
  Notation enc := (enc W cap).
  Notation word := (word W cap).
  Notation ifld := (ifield cap).
  Notation cstep := (cstep P pol).
  Notation step := (step P pol).
  Notation SInv := (SInv (T := T) W cap).
  Notation Inv := (Inv (T := T) W cap).
  Notation call := (call P pol).
  Notation B := (slack W cap).

  Definition returns (k : nat) (s : state) (es : list (event T)) (i : agent) (ok : pc -> Prop) : Prop :=
    exists s' es', call k s es i = Some (s', es') /\ ok (st_agents s' i).

  Definition push_ok (p : pc) : Prop := p = Idle \/ exists r, p = PHold r.
  Definition pop_ok (p : pc) : Prop := p = Idle \/ exists r, p = QHold r.

  Lemma returns_mono k k' s es i (ok : pc -> Prop) : k <= k' -> returns k s es i ok -> returns k' s es i ok.
  Proof. intros H (s' & es' & H1 & H2). exists s', es'. split; auto. eapply call_mono; eauto. Qed.

  Lemma returns_step k s es i c' p' e (ok : pc -> Prop) : stepping (st_agents s i) = true ->
    cstep (st_core s) i (st_agents s i) false = (c', p', e) ->
    returns k (mkS c' (upd (st_agents s) i p')) (ocons e es) i ok -> returns (S k) s es i ok.
  Proof.
    intros H1 H2 (s' & es' & H3 & H4). exists s', es'. split; auto.
    now rewrite (call_step _ _ _ _ _ _ _ _ _ _ H1 H2).
  Qed.

  Lemma returns_now k s es i (ok : pc -> Prop) : stepping (st_agents s i) = false -> ok (st_agents s i) -> returns k s es i ok.
  Proof. intros H1 H2. exists s, es. split; auto. now apply call_done. Qed.

  Lemma returns_end k s es i c' p' e (ok : pc -> Prop) : stepping (st_agents s i) = true ->
    cstep (st_core s) i (st_agents s i) false = (c', p', e) ->
    stepping p' = false -> ok p' -> returns (S k) s es i ok.
  Proof.
    intros H1 H2 H3 H4. eapply returns_step; eauto. apply returns_now; simpl; rewrite upd_same; auto.
  Qed.

  (** ** push *)
  Lemma ret_push_fresh s es q g i : SInv (st_core s) (st_agents s) q g ->
    st_agents s i = PStart \/ st_agents s i = PReload -> unblocked_push cap q ->
    returns 4 s es i push_ok.
  Proof.
    intros HS Hpc Hub. destruct (push_fresh W cap pol Hwf s es q g i HS Hpc Hub) as (s' & es' & H1 & _ & H2).
    exists s', es'. split; auto.
    destruct H2 as [(_ & H2 & _)|[(_ & _ & H2 & _)|(_ & _ & H2 & _)]]; rewrite H2; [now left|right; eauto|now left].
  Qed.

  Lemma ret_push_state_fresh s es q g i : SInv (st_core s) (st_agents s) q g ->
    st_agents s i = PState (enc (length (qlog q))) -> qclosed q = false -> unblocked_push cap q ->
    returns 3 s es i push_ok.
  Proof.
    intros HS A1 Hcl [Hf|(Hnc & v & Hpub)].
    - destruct (push_free W cap pol Hwf s es q g i HS A1 Hcl Hf) as (s' & H1 & H2 & H3).
      eexists _, _. split; eauto. rewrite H2. right; eauto.
    - destruct (push_full W cap pol Hwf s es q g i v HS A1 Hnc Hpub) as (_ & s' & H1 & H2 & _ & H3).
      eexists _, _. split; eauto. rewrite H2. now left.
  Qed.

  Lemma ret_push_head s es q g i t : SInv (st_core s) (st_agents s) q g ->
    st_agents s i = PHead t -> unblocked_push cap q -> returns 5 s es i push_ok.
  Proof.
    intros HS A1 Hub.
    destruct (wrapping_add (p_mod P) (c_head (st_core s)) (p_gen P) =? t)%N eqn:E.
    - eapply returns_end with (p' := Idle); [now rewrite A1| |reflexivity|now left].
      rewrite A1. cbn [CoreModel.cstep]. rewrite E. reflexivity.
    - eapply returns_step with (p' := PReload); [now rewrite A1| |].
      + rewrite A1. cbn [CoreModel.cstep]. rewrite E. reflexivity.
      + apply ret_push_fresh with (q := q) (g := g); auto.
        * cbn [st_core st_agents]. apply SInv_upd; auto. now rewrite A1.
        * right. simpl. apply upd_same.
  Qed.

  Definition tail_unoccupied (s : state (T := T)) (i : agent) : Prop :=
    forall j, j <> i -> occupies P (st_agents s j) <> Some (tail_index P (st_core s)).

  Lemma unoccupied_unblocked s q g i : SInv (st_core s) (st_agents s) q g ->
    holder (st_agents s i) = false -> tail_unoccupied s i -> unblocked_push cap q.
  Proof.
    intros HS Eh Hocc. unfold unblocked_push. set (n := length (qlog q)).
    destruct (Nat.lt_ge_cases n cap) as [Hn|Hn]; [left; now left|].
    pose proof (cap_pos _ _ Hwf).
    destruct (nth_ex (qlog q) (n - cap)) as [e He]; [fold n; lia|].
    assert (Hocc' : forall j, owner e = Some j -> False).
    { intros j Hj.
      assert (Hji : j <> i).
      { intros ->. destruct (owner_holder _ _ _ _ _ _ HS _ _ _ He Hj) as [H1 _]. congruence. }
      apply (Hocc j Hji).
      assert (Hs := i_slot _ _ _ _ _ _ HS _ _ He ltac:(fold n; lia)).
      assert (Eti : tail_index P (st_core s) = ifld (n - cap)).
      { unfold tail_index. rewrite (i_tail _ _ _ _ _ _ HS), (idx_gen_word _ _ Hwf). simpl. fold n.
        symmetry. apply (ifld_sub W cap Hwf q). auto. }
      rewrite Eti. destruct e; simpl in Hj; try discriminate; injection Hj as ->; simpl in Hs.
      - destruct Hs as (_ & _ & [-> | ->] & _); cbn [occupies]; rewrite (idx_gen_enc _ _ Hwf); reflexivity.
      - destruct Hs as (_ & _ & -> & _). reflexivity.
      - destruct Hs as (_ & _ & -> & _). reflexivity. }
    destruct e as [j|j v|v|j v|v]; try (destruct (Hocc' j); reflexivity).
    - right. eauto.
    - left. right. eauto.
  Qed.

  Lemma ret_push_cas s es i t : Good W cap pol s es -> calm B es ->
    st_agents s i = PCas t -> tail_unoccupied s i -> returns 5 s es i push_ok.
  Proof.
    intros HG HC A1 Hocc. pose proof HG as (q & hist & g & HI & HE).
    pose proof (inv_s _ _ _ _ _ _ _ HI) as HS.
    assert (Hub : unblocked_push cap q) by (eapply unoccupied_unblocked; eauto; now rewrite A1).
    destruct (c_tail (st_core s) =? t)%N eqn:E.
    - (* success *)
      assert (Hst : exists s', step s (AStep i false) = Some (s', Some (Reserve i)) /\ st_agents s' i = PInit t /\
               st_core s' = set_tail (st_core s) (let '(idx, gen) := idx_gen P t in next P idx gen) /\
               st_agents s' = upd (st_agents s) i (PInit t)).
      { cbn [CoreModel.step]. rewrite A1. cbn [stepping CoreModel.cstep]. rewrite E. cbn [negb andb].
        destruct (idx_gen P t) as [idx gen]. eexists. repeat split. simpl. apply upd_same. }
      destruct Hst as (s' & Hst & A2 & Ec & Eag).
      destruct (step_good W cap pol Hwf _ _ _ _ _ HG HC Hst) as (q' & hist' & g' & HI' & _).
      pose proof (inv_a _ _ _ _ _ _ _ HI' i) as HA. rewrite A2 in HA. simpl in HA. destruct HA as [Et Hn].
      destruct (solo_init W cap pol Hwf _ _ _ _ (inv_s _ _ _ _ _ _ _ HI') i Hn) as (c' & r & e & St2 & _).
      destruct (idx_gen P t) as [idx gen] eqn:Eig.
      eapply returns_step with (p' := PInit t); [now rewrite A1| |].
      + rewrite A1. cbn [CoreModel.cstep]. rewrite E, Eig. reflexivity.
      + eapply returns_end with (p' := PHold r); [| | |right; eauto]; [simpl; now rewrite upd_same| |reflexivity].
        cbn [st_core st_agents]. rewrite upd_same, Et. rewrite Ec in St2. exact St2.
    - assert (St : cstep (st_core s) i (st_agents s i) false =
        (st_core s, (if qclosed q then Idle else PState (enc (length (qlog q)))),
         if qclosed q then Some (RetPushClosed i) else None)).
      { rewrite A1. cbn [CoreModel.cstep]. rewrite E. cbn [negb andb].
        destruct (idx_gen P t) as [idx gen]. rewrite (solo_top W cap Hwf _ _ _ _ HS). destruct (qclosed q); reflexivity. }
      destruct (qclosed q) eqn:Ecl.
      + eapply returns_end; [now rewrite A1|exact St|reflexivity|now left].
      + eapply returns_mono with (k := 4); [lia|].
        eapply returns_step; [now rewrite A1|exact St|].
        eapply ret_push_state_fresh with (q := q) (g := g); eauto.
        * apply SInv_upd; auto. now rewrite A1.
        * simpl. apply upd_same.
  Qed.

  Lemma ret_push s es i : run P pol es s -> calm B es -> in_push (st_agents s i) = true ->
    tail_unoccupied s i -> returns 6 s es i push_ok.
  Proof.
    intros Hr HC Hin Hocc.
    pose proof (run_good _ _ _ Hwf _ _ Hr HC) as HG. pose proof HG as (q & hist & g & HI & HE).
    pose proof (inv_s _ _ _ _ _ _ _ HI) as HS. pose proof (inv_a _ _ _ _ _ _ _ HI i) as HA.
    destruct (holder (st_agents s i)) eqn:Eh.
    - (* PInit *)
      destruct (st_agents s i) as [] eqn:A1; try discriminate. simpl in HA. destruct HA as [Et Hn].
      destruct (solo_init W cap pol Hwf _ _ _ _ HS i Hn) as (c' & r & e & St & _).
      eapply returns_end with (p' := PHold r); [now rewrite A1|rewrite A1, Et; exact St|reflexivity|right; eauto].
    - assert (Hub : unblocked_push cap q) by (eapply unoccupied_unblocked; eauto).
      destruct (st_agents s i) as [] eqn:A1; try discriminate.
      + eapply returns_mono with (k := 4); [lia|]. eapply ret_push_fresh; eauto.
      + (* PState *)
        simpl in HA. destruct HA as (Et & HA).
        destruct (cstep (st_core s) i (PState tail) false) as [[c' p'] e] eqn:St.
        assert (Hst : step s (AStep i false) = Some (mkS c' (upd (st_agents s) i p'), e)).
        { cbn [CoreModel.step]. rewrite A1. cbn [stepping]. rewrite St. reflexivity. }
        pose proof (step_good W cap pol Hwf _ _ _ _ _ HG HC Hst) as HG'.
        assert (Hp' : c' = st_core s /\ e = None /\ (p' = PCas tail \/ p' = PHead tail \/ p' = PReload)).
        { cbn [CoreModel.cstep] in St. rewrite Et, (idx_gen_enc _ _ Hwf), (in_len_ok W cap Hwf _ _ _ _ HS), <- Et in St.
          destruct (_ =? _)%N; [injection St as <- <- <-; auto|].
          destruct (_ =? _)%N; injection St as <- <- <-; auto. }
        destruct Hp' as (-> & -> & Hp').
        assert (HS' : SInv (st_core s) (upd (st_agents s) i p') q g) by (apply SInv_upd; auto; now rewrite A1).
        eapply returns_step; [now rewrite A1|rewrite A1; exact St|]. cbn [ocons] in *.
        destruct Hp' as [->|[->| ->]].
        * eapply ret_push_cas; eauto; [simpl; apply upd_same|].
          intros j Hj. cbn [st_agents st_core]. rewrite upd_other by auto. now apply Hocc.
        * eapply ret_push_head with (q := q) (g := g); eauto. simpl. apply upd_same.
        * eapply returns_mono with (k := 4); [lia|]. eapply ret_push_fresh with (q := q) (g := g); eauto.
          right. simpl. apply upd_same.
      + eapply returns_mono with (k := 5); [lia|]. eapply ret_push_cas; eauto.
      + eapply returns_mono with (k := 5); [lia|]. eapply ret_push_head; eauto.
      + eapply returns_mono with (k := 4); [lia|]. eapply ret_push_fresh; eauto.
  Qed.

  (** ** pop *)
  Definition head_unheld (s : state (T := T)) : Prop :=
    forall j, pop_handle (st_agents s j) <> Some (head_index P (st_core s)).

  Lemma unheld_unblocked s q g : SInv (st_core s) (st_agents s) q g -> head_unheld s -> unblocked_pop cap q.
  Proof.
    intros HS Hu Eh. unfold free_at. set (n := length (qlog q)) in *.
    destruct (Nat.lt_ge_cases n cap) as [Hn|Hn]; [now left|]. right.
    pose proof (cap_pos _ _ Hwf).
    destruct (nth_ex (qlog q) (n - cap)) as [e He]; [fold n; lia|].
    assert (Hd := i_done _ _ _ _ _ _ HS _ _ He).
    assert (Hs := i_slot _ _ _ _ _ _ HS _ _ He ltac:(fold n; lia)).
    destruct e as [j|j v|v|j v|v]; simpl in Hd, Hs; try (exfalso; lia).
    - exfalso. apply (Hu j). destruct Hs as (_ & _ & -> & _). cbn [pop_handle r_idx].
      unfold head_index. rewrite (i_head _ _ _ _ _ _ HS), (idx_gen_enc _ _ Hwf), Eh. cbn [fst]. f_equal.
      apply (ifld_sub W cap Hwf q). auto.
    - eauto.
  Qed.

  Lemma pop_result_ok (q : queue T) i s' (es es' : list (event T)) : pop_result W cap q i s' es es' -> pop_ok (st_agents s' i).
  Proof. intros [(v & _ & -> & _)|(_ & -> & _)]; [right; eauto|now left]. Qed.

  Lemma ret_pop_fresh s es q g i b : SInv (st_core s) (st_agents s) q g ->
    st_agents s i = QStart \/ st_agents s i = QReload b -> unblocked_pop cap q ->
    returns 12 s es i pop_ok.
  Proof.
    intros HS Hpc Hub. destruct (pop_fresh W cap pol Hwf s es q g i b HS Hub Hpc) as (s' & es' & H1 & _ & H2).
    exists s', es'. split; auto. eapply pop_result_ok; eauto.
  Qed.

  Lemma ret_pop_tail s es q g i h b : SInv (st_core s) (st_agents s) q g ->
    st_agents s i = QTail h b -> unblocked_pop cap q -> returns 13 s es i pop_ok.
  Proof.
    intros HS A1 Hub.
    destruct (cstep (st_core s) i (QTail h b) false) as [[c' p'] e] eqn:St.
    pose proof St as St'. cbn [CoreModel.cstep] in St'.
    destruct (_ =? h)%N; [|destruct (done_spinning b)]; injection St' as <- <- <-.
    - eapply returns_end; [now rewrite A1|rewrite A1; exact St|reflexivity|now left].
    - eapply returns_end; [now rewrite A1|rewrite A1; exact St|reflexivity|now left].
    - eapply returns_step; [now rewrite A1|rewrite A1; exact St|].
      eapply ret_pop_fresh with (q := q) (g := g); eauto.
      + apply SInv_upd; auto. now rewrite A1.
      + right. simpl. apply upd_same.
  Qed.

  Lemma ret_pop_cas s es i h b : Good W cap pol s es -> calm B es ->
    st_agents s i = QCas h b -> head_unheld s -> returns 13 s es i pop_ok.
  Proof.
    intros HG HC A1 Hocc. pose proof HG as (q & hist & g & HI & HE).
    pose proof (inv_s _ _ _ _ _ _ _ HI) as HS.
    assert (Hub : unblocked_pop cap q) by (eapply unheld_unblocked; eauto).
    destruct (cstep (st_core s) i (QCas h b) false) as [[c' p'] e] eqn:St.
    assert (Hst : step s (AStep i false) = Some (mkS c' (upd (st_agents s) i p'), e)).
    { cbn [CoreModel.step]. rewrite A1. cbn [stepping]. rewrite St. reflexivity. }
    destruct (step_good W cap pol Hwf _ _ _ _ _ HG HC Hst) as (q' & hist' & g' & HI' & _).
    pose proof (inv_a _ _ _ _ _ _ _ HI' i) as HA. cbn [st_agents] in HA. rewrite upd_same in HA.
    pose proof St as St'. cbn [CoreModel.cstep] in St'. destruct (idx_gen P h) as [idx gen].
    destruct ((c_head (st_core s) =? h)%N && negb false).
    - destruct (s_value _); injection St' as <- <- <-; [|destruct HA].
      eapply returns_end; [now rewrite A1|rewrite A1; exact St|reflexivity|right; eauto].
    - injection St' as <- <- <-.
      eapply returns_step; [now rewrite A1|rewrite A1; exact St|].
      destruct (pop_state W cap pol Hwf (mkS (st_core s) (upd (st_agents s) i (QState (c_head (st_core s)) (backoff_spin b))))
         (ocons None es) q g i (backoff_spin b)) as (s' & es' & H1 & _ & H2); auto.
      + apply SInv_upd; auto. now rewrite A1.
      + simpl. rewrite upd_same. now rewrite (i_head _ _ _ _ _ _ HS).
      + exists s', es'. split; [eapply call_mono; [|exact H1]; lia|eapply pop_result_ok; eauto].
  Qed.

  Lemma ret_pop s es i : run P pol es s -> calm B es -> in_pop (st_agents s i) = true ->
    head_unheld s -> returns 14 s es i pop_ok.
  Proof.
    intros Hr HC Hin Hocc.
    pose proof (run_good _ _ _ Hwf _ _ Hr HC) as HG. pose proof HG as (q & hist & g & HI & HE).
    pose proof (inv_s _ _ _ _ _ _ _ HI) as HS. pose proof (inv_a _ _ _ _ _ _ _ HI i) as HA.
    assert (Hub : unblocked_pop cap q) by (eapply unheld_unblocked; eauto).
    destruct (st_agents s i) as [] eqn:A1; try discriminate.
    - eapply returns_mono with (k := 12); [lia|]. eapply ret_pop_fresh with (b := 0%N); eauto.
    - (* QState *)
      simpl in HA. destruct HA as (Et & HA).
      destruct (cstep (st_core s) i (QState head b) false) as [[c' p'] e] eqn:St.
      assert (Hst : step s (AStep i false) = Some (mkS c' (upd (st_agents s) i p'), e)).
      { cbn [CoreModel.step]. rewrite A1. cbn [stepping]. rewrite St. reflexivity. }
      pose proof (step_good W cap pol Hwf _ _ _ _ _ HG HC Hst) as HG'.
      assert (Hp' : c' = st_core s /\ e = None /\
                (p' = QCas head b \/ p' = QTail head b \/ p' = QReload (backoff_spin_yield b))).
      { cbn [CoreModel.cstep] in St. rewrite Et, (idx_gen_enc _ _ Hwf), (in_len_ok W cap Hwf _ _ _ _ HS), <- Et in St.
        destruct (_ =? _)%N; [injection St as <- <- <-; auto|].
        destruct (_ =? _)%N; injection St as <- <- <-; auto. }
      destruct Hp' as (-> & -> & Hp').
      assert (HS' : SInv (st_core s) (upd (st_agents s) i p') q g) by (apply SInv_upd; auto; now rewrite A1).
      eapply returns_step; [now rewrite A1|rewrite A1; exact St|]. cbn [ocons] in *.
      destruct Hp' as [->|[->| ->]].
      + eapply ret_pop_cas; eauto; [simpl; apply upd_same|].
        intros j. cbn [st_agents st_core]. unfold upd. destruct (Nat.eqb j i); [discriminate|]. apply Hocc.
      + eapply ret_pop_tail with (q := q) (g := g); eauto. simpl. apply upd_same.
      + eapply returns_mono with (k := 12); [lia|]. eapply ret_pop_fresh with (q := q) (g := g); eauto.
        right. simpl. apply upd_same.
    - eapply returns_mono with (k := 13); [lia|]. eapply ret_pop_cas; eauto.
    - eapply returns_mono with (k := 13); [lia|]. eapply ret_pop_tail; eauto.
    - eapply returns_mono with (k := 12); [lia|]. eapply ret_pop_fresh; eauto.
  Qed.

  (** ** len *)
  Lemma ret_len_fresh s es i : st_agents s i = LTail -> returns 3 s es i (fun p => p = Idle).
  Proof.
    intros A1. destruct (len_fresh W cap pol s es i A1) as (s' & n & H1 & _ & H2 & _). eexists _, _; eauto.
  Qed.

  Lemma ret_len s es i : in_len (st_agents s i) = true -> returns 5 s es i (fun p => p = Idle).
  Proof.
    intros Hin.
    assert (HC : forall (s : @state T) es t h, st_agents s i = LCheck t h -> returns 4 s es i (fun p => p = Idle)).
    { clear. intros s es t h A1. destruct (c_tail (st_core s) =? t)%N eqn:E.
      - eapply returns_end; [now rewrite A1|rewrite A1; cbn [CoreModel.cstep]; rewrite E; reflexivity| |]; reflexivity.
      - eapply returns_step; [now rewrite A1|rewrite A1; cbn [CoreModel.cstep]; rewrite E; reflexivity|].
        apply ret_len_fresh. simpl. apply upd_same. }
    destruct (st_agents s i) as [] eqn:A1; try discriminate.
    - eapply returns_mono with (k := 3); [lia|]. now apply ret_len_fresh.
    - eapply returns_step; [now rewrite A1|rewrite A1; reflexivity|].
      eapply HC. simpl. apply upd_same.
    - eapply returns_mono with (k := 4); [lia|]. eauto.
  Qed.

  (** ** Calls that spin for ever *)
  Lemma spin_push s es q g i e : SInv (st_core s) (st_agents s) q g ->
    st_agents s i = PStart \/ st_agents s i = PReload -> qclosed q = false ->
    cap <= length (qlog q) -> nth_error (qlog q) (length (qlog q) - cap) = Some e ->
    owner e <> None -> forall k, call k s es i = None.
  Proof.
    intros HS Hpc Hcl Hn He Hown k. revert s es HS Hpc.
    induction k as [k IH] using lt_wf_ind. intros s es HS Hpc.
    set (n := length (qlog q)) in *.
    assert (Hstp : stepping (st_agents s i) = true) by (destruct Hpc as [-> | ->]; reflexivity).
    assert (Hnh : holder (st_agents s i) = false) by (destruct Hpc as [-> | ->]; reflexivity).
    assert (Htop := push_top_step W cap pol Hwf _ _ _ _ HS Hpc). fold n in Htop. rewrite Hcl in Htop.
    destruct k as [|k]; [cbn [SeqModel.call]; now rewrite Hstp|].
    rewrite (call_silent _ _ _ _ _ _ _ _ Hstp Htop).
    set (s1 := mkS (st_core s) (upd (st_agents s) i (PState (enc n)))).
    assert (A1 : st_agents s1 i = PState (enc n)) by (simpl; apply upd_same).
    assert (HS1 : SInv (st_core s1) (st_agents s1) q g) by (apply SInv_upd; auto).
    assert (Hr : forall v, e <> Released v) by (intros v ->; now apply Hown).
    assert (St := solo_state_taken W cap pol Hwf _ _ _ _ HS1 i e Hn He Hr). fold n in St.
    destruct k as [|k]; [cbn [SeqModel.call]; now rewrite A1|].
    rewrite <- A1 in St at 1.
    rewrite (call_silent _ _ _ _ _ _ _ _ ltac:(rewrite A1; reflexivity) St).
    assert (Hh : forall p', SInv (st_core s1) (upd (st_agents s1) i p') q g)
      by (intros; apply SInv_upd; auto; now rewrite A1).
    assert (Hfill : forall s2, st_core s2 = st_core s1 -> (forall j, st_agents s2 j = upd (st_agents s1) i PReload j) ->
               call k s2 es i = None).
    { intros s2 E1 E2. apply IH; [lia| |].
      - rewrite E1. eapply SInv_agents; [apply (Hh PReload)|]. auto.
      - right. rewrite E2. apply upd_same. }
    destruct e as [j|j v|v|j v|v]; try (now destruct Hown); try (now apply Hfill).
    (* a held slot: one more step *)
    set (s2 := mkS (st_core s1) (upd (st_agents s1) i (PHead (enc n)))).
    assert (A2 : st_agents s2 i = PHead (enc n)) by (simpl; apply upd_same).
    assert (St2 := solo_head W cap pol Hwf (st_core s2) (st_agents s2) q g (Hh _) i). fold n in St2.
    assert (Hd := i_done _ _ _ _ _ _ HS _ _ He). simpl in Hd. destruct Hd as [_ Hd]. specialize (Hd I).
    replace (Nat.eqb n (qtaken q + cap)) with false in St2 by (symmetry; apply Nat.eqb_neq; lia).
    destruct k as [|k]; [cbn [SeqModel.call]; now rewrite A2|].
    rewrite <- A2 in St2 at 1.
    rewrite (call_silent _ _ _ _ _ _ _ _ ltac:(rewrite A2; reflexivity) St2).
    apply IH; [lia| |].
    - apply SInv_upd; [apply Hh|]. now rewrite A2.
    - right. simpl. apply upd_same.
  Qed.

  Lemma spin_pop s es q g i p j v : SInv (st_core s) (st_agents s) q g ->
    (st_agents s i = QStart \/ exists b, st_agents s i = QReload b) ->
    p + cap = qtaken q -> nth_error (qlog q) p = Some (Held j v) -> length (qlog q) = qtaken q ->
    forall k, call k s es i = None.
  Proof.
    intros HS Hpc Ep Hp En k. revert s es HS Hpc.
    induction k as [k IH] using lt_wf_ind. intros s es HS Hpc.
    assert (Hstp : stepping (st_agents s i) = true) by (destruct Hpc as [-> |[b ->]]; reflexivity).
    assert (Hnh : holder (st_agents s i) = false) by (destruct Hpc as [-> |[b ->]]; reflexivity).
    assert (St : exists b', cstep (st_core s) i (st_agents s i) false = (st_core s, QState (enc (qtaken q)) b', None)).
    { destruct Hpc as [-> |[b ->]]; cbn [CoreModel.cstep]; rewrite (i_head _ _ _ _ _ _ HS); eauto. }
    destruct St as [b' St].
    destruct k as [|k]; [cbn [SeqModel.call]; now rewrite Hstp|].
    rewrite (call_silent _ _ _ _ _ _ _ _ Hstp St).
    set (s1 := mkS (st_core s) (upd (st_agents s) i (QState (enc (qtaken q)) b'))).
    assert (A1 : st_agents s1 i = QState (enc (qtaken q)) b') by (simpl; apply upd_same).
    assert (HS1 : SInv (st_core s1) (st_agents s1) q g) by (apply SInv_upd; auto).
    assert (St1 := solo_pop_held W cap pol Hwf _ _ _ _ HS1 i b' p j v Ep Hp En).
    destruct k as [|k]; [cbn [SeqModel.call]; now rewrite A1|].
    rewrite <- A1 in St1 at 1.
    rewrite (call_silent _ _ _ _ _ _ _ _ ltac:(rewrite A1; reflexivity) St1).
    apply IH; [lia| |].
    - apply SInv_upd; auto. now rewrite A1.
    - right. eexists. simpl. apply upd_same.
  Qed.

  (** Two log positions with the same slot, one window apart. *)
  Lemma same_slot (q : queue T) p : length (qlog q) <= p + cap -> p < length (qlog q) ->
    ifld p = ifld (length (qlog q)) -> p + cap = length (qlog q).
  Proof.
    intros H1 H2 E. pose proof (cap_pos _ _ Hwf).
    destruct (Nat.eq_dec (p + cap) (length (qlog q))) as [|Hne]; auto. exfalso.
    assert (p = length (qlog q)); [|lia].
    apply (win_distinct W cap Hwf (S (length (qlog q)))); auto; lia.
  Qed.

  Lemma push_spins s es i j : run P pol es s -> calm B es -> st_agents s i = PStart ->
    N.land (c_tail (st_core s)) (p_closed P) = 0%N ->
    occupies P (st_agents s j) = Some (tail_index P (st_core s)) ->
    forall k, call k s es i = None.
  Proof.
    intros Hr HC A1 Hcl Hocc.
    pose proof (run_good _ _ _ Hwf _ _ Hr HC) as (q & hist & g & HI & HE).
    pose proof (inv_s _ _ _ _ _ _ _ HI) as HS.
    assert (Ecl : qclosed q = false).
    { rewrite (i_tail _ _ _ _ _ _ HS) in Hcl. pose proof (closed_test _ _ Hwf (qclosed q) (length (qlog q))) as H.
      rewrite Hcl in H. simpl in H. destruct (qclosed q); auto; discriminate. }
    unfold tail_index in Hocc. rewrite (i_tail _ _ _ _ _ _ HS), (idx_gen_word _ _ Hwf) in Hocc. cbn [fst] in Hocc.
    pose proof (inv_a _ _ _ _ _ _ _ HI j) as HA.
    assert (HX : exists e, nth_error (qlog q) (g j) = Some e /\ owner e = Some j /\ ifld (g j) = ifld (length (qlog q))).
    { destruct (st_agents s j) as [] eqn:Aj; cbn [occupies] in Hocc; try discriminate; simpl in HA.
      - destruct HA as [-> HA]. rewrite (idx_gen_enc _ _ Hwf) in Hocc. injection Hocc as Hocc. eauto.
      - destruct HA as (-> & v & HA). injection Hocc as Hocc. eauto.
      - destruct HA as [-> HA]. rewrite (idx_gen_enc _ _ Hwf) in Hocc. injection Hocc as Hocc. eauto.
      - destruct HA as (-> & v & HA). injection Hocc as Hocc. eauto. }
    destruct HX as (e & He & Hown & Hi).
    assert (Hw : length (qlog q) <= g j + cap).
    { eapply live_in_window; eauto. intros v ->. discriminate. }
    pose proof (same_slot q (g j) Hw (nth_lt _ _ _ He) Hi) as Eg.
    intros k. eapply spin_push with (q := q) (g := g) (e := e); eauto; try lia.
    - replace (length (qlog q) - cap) with (g j) by lia. auto.
    - congruence.
  Qed.

  Lemma pop_spins s es i j : run P pol es s -> calm B es -> st_agents s i = QStart ->
    pop_handle (st_agents s j) = Some (head_index P (st_core s)) ->
    forall k, call k s es i = None.
  Proof.
    intros Hr HC A1 Hocc.
    pose proof (run_good _ _ _ Hwf _ _ Hr HC) as (q & hist & g & HI & HE).
    pose proof (inv_s _ _ _ _ _ _ _ HI) as HS. pose proof (i_order _ _ _ _ _ _ HS) as Ho.
    unfold head_index in Hocc. rewrite (i_head _ _ _ _ _ _ HS), (idx_gen_enc _ _ Hwf) in Hocc. cbn [fst] in Hocc.
    pose proof (inv_a _ _ _ _ _ _ _ HI j) as HA.
    destruct (st_agents s j) as [] eqn:Aj; cbn [pop_handle] in Hocc; try discriminate; simpl in HA.
    destruct HA as (-> & v & HA).
    assert (Hw := live_in_window _ _ _ _ _ _ HS _ _ HA ltac:(discriminate)).
    injection Hocc as Hocc. assert (Hd := i_done _ _ _ _ _ _ HS _ _ HA). simpl in Hd. destruct Hd as [_ Hd]. specialize (Hd I).
    pose proof (cap_pos _ _ Hwf).
    assert (Eg : g j + cap = qtaken q).
    { destruct (Nat.eq_dec (g j + cap) (qtaken q)) as [|Hne]; auto. exfalso.
      assert (g j = qtaken q); [|lia].
      apply (win_distinct W cap Hwf (S (qtaken q))); auto; lia. }
    intros k. eapply spin_pop with (q := q) (g := g) (p := g j); eauto. lia.
  Qed.
End SoloFacts.
