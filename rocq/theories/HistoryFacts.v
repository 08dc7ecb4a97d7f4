(** Consequences of [explains] expressed on histories. *)
From Coq Require Import List Bool Arith NArith Lia.
From Verif Require Import QueueSpec History CoreInv.
Import ListNotations.

Lemma last_is_snoc_same i l : last_is i (l ++ [i]) (length l) = true.
Proof.
  unfold last_is. rewrite nth_error_app2, Nat.sub_diag by lia. cbn [nth_error].
  rewrite Nat.eqb_refl. rewrite (skipn_all2 (n := S (length l))); [reflexivity|]. rewrite app_length. simpl. lia.
Qed.

Lemma last_is_snoc_other i j l n : i <> j -> last_is i (l ++ [j]) n = last_is i l n.
Proof.
  intros Hij. unfold last_is. destruct (Nat.lt_ge_cases n (length l)) as [Hn|Hn].
  - rewrite nth_error_app1 by auto. destruct (nth_error l n); auto.
    rewrite skipn_app. replace (S n - length l) with 0 by lia. simpl (skipn 0 _).
    rewrite forallb_app. simpl. apply Nat.eqb_neq in Hij. rewrite Hij. simpl. now rewrite andb_true_r.
  - rewrite nth_error_app2 by auto. assert (nth_error l n = None) as -> by now apply nth_error_None.
    destruct (n - length l) as [|m]; simpl.
    + apply Nat.eqb_neq in Hij. now rewrite Hij.
    + now destruct m.
Qed.

Lemma last_is_snoc_early i l n : n < length l -> last_is i (l ++ [i]) n = false.
Proof.
  intros Hn. unfold last_is. rewrite nth_error_app1 by auto. destruct (nth_error l n); auto.
  rewrite skipn_app. replace (S n - length l) with 0 by lia. simpl (skipn 0 _).
  rewrite forallb_app. simpl. rewrite Nat.eqb_refl. simpl. now rewrite !andb_false_r.
Qed.

Lemma last_is_bound i l n : last_is i l n = true -> n < length l.
Proof. unfold last_is. intros H. apply nth_error_Some. destruct (nth_error l n); congruence. Qed.

Lemma last_is_unique i l n m : last_is i l n = true -> last_is i l m = true -> n = m.
Proof.
  assert (W : forall n m, n < m -> last_is i l n = true -> last_is i l m = true -> False).
  { clear. intros n m Hlt. unfold last_is. destruct (nth_error l n) as [a|] eqn:E1; [|discriminate].
    destruct (nth_error l m) as [b|] eqn:E2; [|discriminate].
    intros H1 H2. apply andb_true_iff in H1 as [_ H1]. apply andb_true_iff in H2 as [H2 _].
    apply Nat.eqb_eq in H2. subst b. rewrite forallb_forall in H1.
    assert (In i (skipn (S n) l)) as Hin.
    { apply nth_error_In with (n := m - S n). rewrite <- E2.
      rewrite <- (firstn_skipn (S n) l) at 2.
      assert (Hm := nth_lt _ _ _ E2).
      rewrite nth_error_app2; rewrite firstn_length_le by lia; [reflexivity|lia]. }
    apply H1 in Hin. rewrite Nat.eqb_refl in Hin. discriminate. }
  intros H1 H2. destruct (Nat.lt_trichotomy n m) as [H|[H|H]]; auto; exfalso; eauto.
Qed.

Lemma reservers_length {T} (es : list (event T)) : length (reservers es) = count is_reserve es.
Proof. induction es as [|[] es IH]; simpl; auto. rewrite app_length. simpl. lia. Qed.
Lemma takers_length {T} (es : list (event T)) : length (takers es) = count is_take es.
Proof. induction es as [|[] es IH]; simpl; auto. rewrite app_length. simpl. lia. Qed.

Lemma committed_other {T} (es : list (event T)) i v n p : last_is i (reservers es) p = true -> n <> p ->
  committed (Commit i v :: es) n = committed es n.
Proof.
  intros H1 H2. simpl. destruct (last_is i (reservers es) n) eqn:E; auto.
  exfalso. apply H2. eapply last_is_unique; eauto.
Qed.

Lemma released_other {T} (es : list (event T)) i v n p : last_is i (takers es) p = true -> n <> p ->
  released (Release i v :: es) n = released es n.
Proof.
  intros H1 H2. simpl. destruct (last_is i (takers es) n) eqn:E; auto.
  exfalso. apply H2. eapply last_is_unique; eauto.
Qed.

Section Facts.
  Context {T : Type}.
  Variables (cap : nat) (fresh : nat -> Prop) (new : T) (recycle : T -> T).
  Notation explains := (explains cap fresh new recycle).
  Notation sstep := (sstep cap fresh new recycle).

  (** What each entry of the log says about the history. *)
  Definition entry_hist (es : list (event T)) (p : nat) (e : entry T) : Prop :=
    match e with
    | Reserved i => last_is i (reservers es) p = true /\ committed es p = None
    | Filling i v => last_is i (reservers es) p = true /\ committed es p = None /\ content i es = Some v
    | Published v => committed es p = Some v
    | Held i v => last_is i (takers es) p = true /\ released es p = None /\ content i es = Some v
                  /\ (exists w, committed es p = Some w)
    | Released v => released es p = Some v /\ (exists w, committed es p = Some w)
    end.

  Record hist_ok (es : list (event T)) (q : queue T) : Prop := {
    h_res : length (qlog q) = count is_reserve es;
    h_take : qtaken q = count is_take es;
    h_closed : qclosed q = closed_in es;
    h_order : qtaken q <= length (qlog q) <= qtaken q + cap;
    h_done : forall p e, nth_error (qlog q) p = Some e -> p < qtaken q <-> done_entry e;
    h_committed_none : forall n, length (qlog q) <= n -> committed es n = None;
    h_released_none : forall n, qtaken q <= n -> released es n = None;
    h_entry : forall p e, nth_error (qlog q) p = Some e -> entry_hist es p e;
    h_uniq : forall p p' e e' i, nth_error (qlog q) p = Some e -> nth_error (qlog q) p' = Some e' ->
               owner e = Some i -> owner e' = Some i -> p = p' }.

  (** An event that leaves the log, [committed], [released], [content] alone. *)
  Definition quiet (e : event T) : bool :=
    match e with
    | Invoke _ _ | RetFull _ | RetPushClosed _ | RetEmpty _ | RetPopClosed _ | RetLen _ _
    | Poison _ | Closing _ _ => true
    | _ => false
    end.

  Lemma hist_ok_quiet es q e q' : hist_ok es q -> quiet e = true ->
    qlog q' = qlog q -> qtaken q' = qtaken q -> qclosed q' = closed_in (e :: es) -> hist_ok (e :: es) q'.
  Proof.
    intros [] He E1 E2 E3. destruct e; try discriminate; constructor; rewrite ?E1, ?E2; auto.
  Qed.

  (** Updating an entry owned by [i]. *)
  Lemma hist_ok_entry es q e p x x' i :
    hist_ok es q -> nth_error (qlog q) p = Some x -> owner x = Some i ->
    agent_of e = i -> is_reserve e = false -> is_take e = false ->
    (done_entry x' <-> done_entry x) ->
    (owner x' = Some i \/ owner x' = None) ->
    closed_in (e :: es) = closed_in es ->
    (forall n, n <> p -> committed (e :: es) n = committed es n) ->
    (forall n, n <> p -> released (e :: es) n = released es n) ->
    (forall n, qtaken q <= n -> released (e :: es) n = None) ->
    (forall j, j <> i -> content j (e :: es) = content j es) ->
    entry_hist (e :: es) p x' ->
    hist_ok (e :: es) (set_entry q p x').
  Proof.
    intros [] Hx Ho He1 He2 He3 Hd Hown' Hcl Hc Hr Hr0 Hct Hx'.
    pose proof (nth_lt _ _ _ Hx) as Hlt.
    assert (Eres : reservers (e :: es) = reservers es) by (destruct e; simpl; auto; discriminate).
    assert (Etak : takers (e :: es) = takers es) by (destruct e; simpl; auto; discriminate).
    constructor; simpl qlog; simpl qtaken; simpl qclosed; rewrite ?set_nth_length, ?Hcl; auto.
    - cbn [count]. rewrite He2. auto.
    - cbn [count]. rewrite He3. auto.
    - intros n y Hy. apply nth_set_inv in Hy as [(-> & -> & _)|[Hne Hy]]; auto.
      rewrite Hd. auto.
    - intros n Hn. rewrite Hc by lia. auto.
    - intros n y Hy. apply nth_set_inv in Hy as [(-> & -> & _)|[Hne Hy]]; auto.
      assert (Hoy : owner y <> Some i) by (intros Hoy; apply Hne; eauto).
      specialize (h_entry0 _ _ Hy).
      destruct y as [j|j v|v|j v|v]; simpl in Hoy; unfold entry_hist in *; rewrite ?Eres, ?Etak, ?Hc, ?Hr by auto; auto.
      + rewrite Hct by congruence. auto.
      + rewrite Hct by congruence. auto.
    - intros n n' y y' j Hy Hy' Ho1 Ho2.
      apply nth_set_inv in Hy as [(-> & -> & _)|[Hne Hy]];
      apply nth_set_inv in Hy' as [(-> & -> & _)|[Hne' Hy']]; auto.
      + assert (j = i) by (destruct Hown'; congruence). subst j. exfalso. apply Hne'. eauto.
      + assert (j = i) by (destruct Hown'; congruence). subst j. exfalso. apply Hne. eauto.
      + eauto.
  Qed.

  Lemma hist_ok_init : hist_ok [] empty_queue.
  Proof.
    constructor; simpl; auto; try lia; intros [|p]; simpl; intros; try discriminate.
  Qed.

  Lemma eqb_neq' i j : i <> j -> Nat.eqb i j = false.
  Proof. apply Nat.eqb_neq. Qed.

  Lemma hist_ok_step es q e q' : hist_ok es q -> sstep q e q' -> hist_ok (e :: es) q'.
  Proof.
    intros H Hs. pose proof H as H0. destruct H0.
    destruct Hs as [q i Hcl Hroom Hun|q i p v Hp Hel Hf|q i p v l Hp Hel Hf Hc Hold|q i p u v Hp|q i p v Hp|q i v Hp Hun
                   |q i p u v Hp|q i p v Hp|q i|q i|q i p Hp|q i o Hun|q i|q i|q i|q i|q i n];
      try (apply hist_ok_quiet with (q := q); auto; fail).
    - (* Reserve *)
      constructor; simpl qlog; simpl qtaken; simpl qclosed; rewrite ?app_length; cbn [length]; auto.
      + cbn [count is_reserve]. lia.
      + simpl. rewrite <- h_closed0. auto.
      + lia.
      + intros p e Hp. apply nth_snoc_inv in Hp as [Hp|[-> ->]]; auto. simpl. lia.
      + intros n Hn. simpl. apply h_committed_none0. lia.
      + intros p e Hp. apply nth_snoc_inv in Hp as [Hp|[-> ->]].
        * pose proof (Hun _ _ Hp) as Hne. specialize (h_entry0 _ _ Hp).
          destruct e as [j|j v|v|j v|v]; simpl in Hne; unfold entry_hist in *;
            cbn [reservers takers committed released content]; auto;
            rewrite last_is_snoc_other by congruence; auto.
        * simpl. split; [|apply h_committed_none0; lia].
          rewrite h_res0, <- reservers_length. apply last_is_snoc_same.
      + intros p p' e e' j Hp Hp' Ho Ho'.
        apply nth_snoc_inv in Hp as [Hp|[-> ->]]; apply nth_snoc_inv in Hp' as [Hp'|[-> ->]]; auto.
        * eauto.
        * simpl in Ho'. injection Ho' as <-. now destruct (Hun _ _ Hp).
        * simpl in Ho. injection Ho as <-. now destruct (Hun _ _ Hp').
    - (* HandOut *)
      destruct (h_entry0 _ _ Hp) as [E1 E2].
      eapply hist_ok_entry with (i := i); eauto; simpl; try tauto.
      + intros j Hj. now rewrite eqb_neq'.
      + now rewrite Nat.eqb_refl.
    - destruct (h_entry0 _ _ Hp) as [E1 E2].
      eapply hist_ok_entry with (i := i); eauto; simpl; try tauto.
      + intros j Hj. now rewrite eqb_neq'.
      + now rewrite Nat.eqb_refl.
    - destruct (h_entry0 _ _ Hp) as (E1 & E2 & E3).
      eapply hist_ok_entry with (i := i); eauto; simpl; try tauto.
      + intros j Hj. now rewrite eqb_neq'.
      + now rewrite Nat.eqb_refl.
    - (* Commit *)
      destruct (h_entry0 _ _ Hp) as (E1 & E2 & E3).
      eapply hist_ok_entry with (i := i); eauto; try (simpl; tauto).
      + intros n Hn. eapply committed_other; eauto.
      + simpl. now rewrite E1.
    - (* Take *)
      pose proof (nth_lt _ _ _ Hp) as Hlt.
      constructor; simpl qlog; simpl qtaken; simpl qclosed; rewrite ?set_nth_length; auto.
      + cbn [count is_take]. lia.
      + lia.
      + intros n y Hy. apply nth_set_inv in Hy as [(-> & -> & _)|[Hne Hy]]; [simpl; lia|].
        rewrite <- (h_done0 _ _ Hy). lia.
      + intros n Hn. simpl. apply h_released_none0. lia.
      + intros n y Hy. apply nth_set_inv in Hy as [(-> & -> & _)|[Hne Hy]].
        * unfold entry_hist. cbn [reservers takers committed released content].
          rewrite h_take0 at 1. rewrite <- takers_length, last_is_snoc_same, Nat.eqb_refl.
          repeat split; auto. exists v. apply (h_entry0 _ _ Hp).
        * pose proof (Hun _ _ Hy) as Ho. specialize (h_entry0 _ _ Hy).
          destruct y as [j|j w|w|j w|w]; simpl in Ho; unfold entry_hist in *;
            cbn [reservers takers committed released content]; auto;
            rewrite ?last_is_snoc_other, ?eqb_neq' by congruence; auto.
      + intros n n' y y' j Hy Hy' Ho1 Ho2.
        apply nth_set_inv in Hy as [(-> & -> & _)|[Hne Hy]];
        apply nth_set_inv in Hy' as [(-> & -> & _)|[Hne' Hy']]; auto.
        * simpl in Ho1. injection Ho1 as <-. now destruct (Hun _ _ Hy').
        * simpl in Ho2. injection Ho2 as <-. now destruct (Hun _ _ Hy).
        * eauto.
    - destruct (h_entry0 _ _ Hp) as (E1 & E2 & E3 & E4).
      eapply hist_ok_entry with (i := i); eauto; simpl; try tauto.
      + intros j Hj. now rewrite eqb_neq'.
      + now rewrite Nat.eqb_refl.
    - (* Release *)
      destruct (h_entry0 _ _ Hp) as (E1 & E2 & E3 & E4).
      assert (p < qtaken q) by (apply (h_done0 _ _ Hp); exact I).
      eapply hist_ok_entry with (i := i); eauto; try (simpl; tauto).
      + intros n Hn. eapply released_other; eauto.
      + intros n Hn. rewrite (released_other _ _ _ _ p); auto. lia.
      + simpl. rewrite E1. auto.
    - apply hist_ok_quiet with (q := q); auto. simpl. rewrite <- h_closed0. destruct (qclosed q); auto.
  Qed.

  Lemma explains_hist es q hist : explains es (q :: hist) -> hist_ok es q.
  Proof.
    intros H. remember (q :: hist) as h. revert q hist Heqh.
    induction H as [|es q0 h e q' H IH Hs Ho]; intros q hist [= <- <-].
    - apply hist_ok_init.
    - eapply hist_ok_step; eauto.
  Qed.

  Lemma explains_nonempty es hist : explains es hist -> exists q h, hist = q :: h.
  Proof. destruct 1; eauto. Qed.

  (** Inversion at any point of the history. *)
  Lemma explains_at es2 e es1 hist : explains (es2 ++ e :: es1) hist ->
    exists q h q', explains es1 (q :: h) /\ sstep q e q' /\ hist_ok es1 q /\
      exists q0, In q0 (since_call (agent_of e) es1 (q :: h)) /\ observes cap q0 e.
  Proof.
    revert hist. induction es2 as [|x es2 IH]; intros hist H; simpl in H; inversion H; subst.
    - eexists _, _, _. split; [eauto|]. split; [eauto|]. split; [eapply explains_hist; eauto|]. auto.
    - eauto.
  Qed.

  (** The states of a call's window are the states at its moments. *)
  Lemma window_moments i es hist q0 : explains es hist -> In q0 (since_call i es hist) ->
    exists es0, In es0 (moments i es) /\ hist_ok es0 q0.
  Proof.
    induction 1 as [|es q h e q' H IH Hs Ho]; intros Hin.
    - simpl in Hin. destruct Hin as [<-|[]]. exists []. split; [now left|apply hist_ok_init].
    - simpl in Hin. destruct Hin as [<-|Hin].
      + exists (e :: es). split; [now left|]. eapply hist_ok_step; eauto. eapply explains_hist; eauto.
      + destruct (is_invoke i e) eqn:E; [destruct Hin|].
        destruct (IH Hin) as (es0 & H1 & H2). exists es0. split; auto. simpl. rewrite E. now right.
  Qed.
End Facts.
