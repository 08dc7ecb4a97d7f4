(** Proofs of the ring theorems, from the refinement [run_good]. *)
From Coq Require Import List Bool Arith NArith Lia.
From Coq Require Import ZifyN ZifyNat ZifyBool.
From Verif Require Import Word QueueSpec History HistoryFacts CoreModel CoreArith CoreInv CoreStep RingSpec.
Import ListNotations.

(** ** Histories with few pushes are calm *)
Lemma count_since_le {T} (f : event T -> bool) i es : count_since f i es <= count f es.
Proof. induction es as [|e es IH]; simpl; auto. destruct (is_invoke i e); lia. Qed.

Lemma nth_snoc_lt {A} (l : list A) x n : n < length l -> nth_error (l ++ [x]) n = nth_error l n.
Proof. intros H. now apply nth_error_app1. Qed.

Section Ring.
  Context {T : Type}.
  Variables (W : N) (cap : nat) (pol : policy T).
  Hypothesis Hwf : wf W cap.
  Notation P := (core_new W (N.of_nat cap)).
  Notation event := (event T).
  Notation B := (slack W cap).
  Notation new := (new_element pol).
  Notation rec := (recycle pol).
  Notation fresh := (fresh_pos W cap).
  Notation explains := (explains cap fresh new rec).
  Notation sstep := (sstep cap fresh new rec).
  Notation hist_ok := (hist_ok (T := T) cap).

  Lemma take_inv q i v q' : sstep q (Take i v) q' -> nth_error (qlog q) (qtaken q) = Some (Published v).
  Proof. inversion 1; auto. Qed.
  Lemma reserve_inv q i q' : sstep q (Reserve i) q' -> qclosed q = false /\ length (qlog q) < qtaken q + cap.
  Proof. inversion 1; auto. Qed.
  Lemma handout_inv q i v q' : sstep q (HandOut i v) q' -> exists p, nth_error (qlog q) p = Some (Reserved i)
    /\ element_ok cap fresh new rec q p v /\ (p < cap \/ ~ fresh p).
  Proof. inversion 1; eauto. Qed.
  Lemma overwrite_inv q i l v q' : sstep q (Overwrite i l v) q' -> exists p, nth_error (qlog q) p = Some (Reserved i)
    /\ fresh p /\ cap <= p /\ nth_error (qlog q) (p - cap) = Some (Released l) /\ element_ok cap fresh new rec q p v.
  Proof. inversion 1; eauto 8. Qed.
  Lemma commit_inv q i v q' : sstep q (Commit i v) q' -> exists p, nth_error (qlog q) p = Some (Filling i v).
  Proof. inversion 1; eauto. Qed.
  Lemma release_inv q i v q' : sstep q (Release i v) q' -> exists p, nth_error (qlog q) p = Some (Held i v).
  Proof. inversion 1; eauto. Qed.

  Lemma history_explained es : ring_history W cap pol es -> calm B es ->
    exists q hist, explains es (q :: hist) /\ hist_ok es q.
  Proof.
    intros [s Hr] HC. destruct (run_good _ _ _ Hwf _ _ Hr HC) as (q & hist & g & _ & HE).
    exists q, hist. split; auto. eapply explains_hist; eauto.
  Qed.

  Lemma history_at es2 e es1 : ring_history W cap pol (es2 ++ e :: es1) -> calm B (es2 ++ e :: es1) ->
    exists q q' h, explains es1 (q :: h) /\ hist_ok es1 q /\ sstep q e q' /\
      exists es0 q0, In es0 (moments (agent_of e) es1) /\ hist_ok es0 q0 /\ observes cap q0 e.
  Proof.
    intros Hh HC. destruct (history_explained _ Hh HC) as (q & hist & HE & _).
    apply explains_at in HE as (q1 & h & q' & HE1 & Hs & Hok & q0 & Hin & Hob).
    exists q1, q', h. split; [auto|]. split; [auto|]. split; [auto|].
    destruct (window_moments _ _ _ _ _ _ _ _ HE1 Hin) as (es0 & Hm & Hok0).
    exists es0, q0. auto.
  Qed.

  Lemma calm_suffix es2 (es1 : list event) : calm B (es2 ++ es1) -> calm B es1.
  Proof. induction es2; simpl; tauto. Qed.

  Lemma run_suffix es2 es1 : ring_history W cap pol (es2 ++ es1) -> ring_history W cap pol es1.
  Proof.
    intros [s Hr]. remember (es2 ++ es1) as es. revert es2 es1 Heqes.
    induction Hr as [|es s a s' [e|] Hr IH Hs]; intros es2 es1 E; simpl in E.
    - destruct es2; [|discriminate]. simpl in E. subst. eexists; constructor.
    - destruct es2 as [|x es2]; simpl in E.
      + subst es1. exists s'. apply (run_step _ _ _ _ _ _ (Some e) Hr Hs).
      + injection E as -> ->. eauto.
    - eauto.
  Qed.

  Lemma counts_ok es : ring_history W cap pol es -> calm B es ->
    count is_take es <= count is_reserve es <= count is_take es + cap.
  Proof.
    intros Hh HC. destruct (history_explained _ Hh HC) as (q & _ & _ & Hok).
    pose proof (h_order _ _ _ Hok). pose proof (h_res _ _ _ Hok). pose proof (h_take _ _ _ Hok). lia.
  Qed.

  Lemma run_few es s : run P pol es s -> (N.of_nat (count is_reserve es) < B)%N ->
    calm B es /\ Good W cap pol s es.
  Proof.
    induction 1 as [|es s a s' e Hr IH Hs]; intros Hn.
    - split; [exact I|]. apply (run_good W cap pol Hwf [] _); [constructor|exact I].
    - assert (Hle : count is_reserve es <= count is_reserve (ocons e es)) by (destruct e; simpl; lia).
      destruct IH as [HC HG]; [lia|].
      assert (HG' : Good W cap pol s' (ocons e es)) by (eapply step_good; eauto).
      split; auto. destruct e as [e|]; simpl; auto. split; auto. intros i Hp.
      destruct HG' as (q & hist & g & _ & HE). apply explains_hist in HE.
      pose proof (h_order _ _ _ HE). pose proof (h_res _ _ _ HE). pose proof (h_take _ _ _ HE).
      assert (H3 := count_since_le is_reserve i (e :: es)).
      assert (H4 := count_since_le is_take i (e :: es)).
      cbn [ocons] in *. cbn [count_since count] in *. lia.
  Qed.

  Lemma calm_of_few es : ring_history W cap pol es -> (N.of_nat (count is_reserve es) < B)%N -> calm B es.
  Proof. intros [s Hr] Hn. eapply run_few; eauto. Qed.

  (** ** FIFO *)
  Lemma fifo_nth es2 i v es1 : ring_history W cap pol (es2 ++ Take i v :: es1) ->
    calm B (es2 ++ Take i v :: es1) -> committed es1 (count is_take es1) = Some v.
  Proof.
    intros Hh HC. destruct (history_at _ _ _ Hh HC) as (q & q' & h & _ & Hok & Hs & _).
    apply take_inv in Hs. rewrite <- (h_take _ _ _ Hok). apply (h_entry _ _ _ Hok _ _ Hs).
  Qed.

  Lemma head_of_line es2 i v es1 m : ring_history W cap pol (es2 ++ Take i v :: es1) ->
    calm B (es2 ++ Take i v :: es1) -> m <= count is_take es1 -> exists w, committed es1 m = Some w.
  Proof.
    intros Hh HC Hm. destruct (history_at _ _ _ Hh HC) as (q & q' & h & _ & Hok & Hs & _).
    apply take_inv in Hs. pose proof (nth_lt _ _ _ Hs) as Hlt. rewrite <- (h_take _ _ _ Hok) in Hm.
    destruct (nth_ex (qlog q) m) as [e He]; [lia|].
    pose proof (h_entry _ _ _ Hok _ _ He) as Hx.
    destruct (Nat.eq_dec m (qtaken q)) as [->|Hne].
    - rewrite He in Hs. injection Hs as ->. eauto.
    - assert (Hd : done_entry e) by (apply (h_done _ _ _ Hok _ _ He); lia).
      destruct e; simpl in Hd, Hx; try tauto.
  Qed.

  (** [committed] never changes once set. *)
  Lemma committed_stable e es n w : ring_history W cap pol (e :: es) -> calm B (e :: es) ->
    committed es n = Some w -> committed (e :: es) n = Some w.
  Proof.
    intros Hh HC Hn. destruct e; try exact Hn.
    destruct (history_at [] _ _ Hh HC) as (q & q' & h & _ & Hok & Hs & _).
    apply commit_inv in Hs as [p Hs]. destruct (h_entry _ _ _ Hok _ _ Hs) as (E1 & E2 & E3).
    destruct (Nat.eq_dec n p) as [->|Hne]; [congruence|].
    rewrite (committed_other _ _ _ _ p); auto.
  Qed.

  Lemma taken_length es : length (taken_values (T := T) es) = count is_take es.
  Proof. induction es as [|[] es IH]; simpl; auto. rewrite app_length. simpl. lia. Qed.

  Lemma fifo_list es : ring_history W cap pol es -> calm B es ->
    map Some (taken_values es) = map (committed es) (seq 0 (count is_take es)).
  Proof.
    induction es as [|e es IH]; intros Hh HC; [reflexivity|].
    assert (Hh' := run_suffix [e] es Hh). assert (HC' := calm_suffix [e] es HC).
    specialize (IH Hh' HC').
    assert (Hst : map (committed (e :: es)) (seq 0 (count is_take es)) = map (committed es) (seq 0 (count is_take es))).
    { apply map_ext_in. intros n Hn. apply in_seq in Hn. simpl in Hn.
      assert (E : nth_error (map (committed es) (seq 0 (count is_take es))) n = Some (committed es n)).
      { apply map_nth_error. rewrite (nth_error_nth' _ 0) by (rewrite seq_length; lia). now rewrite seq_nth by lia. }
      rewrite <- IH, nth_error_map in E.
      destruct (nth_error (taken_values es) n) as [w|]; [|discriminate]. injection E as E.
      rewrite <- E. now apply committed_stable. }
    destruct (is_take e) eqn:Et.
    - destruct e; try discriminate. cbn [taken_values count is_take].
      rewrite map_app. simpl (1 + _). rewrite seq_S, map_app, Hst, IH. simpl. f_equal. f_equal.
      symmetry. exact (fifo_nth [] _ _ _ Hh HC).
    - assert (E1 : count is_take (e :: es) = count is_take es) by (simpl; now rewrite Et).
      rewrite E1, Hst, <- IH. f_equal. destruct e; try discriminate; reflexivity.
  Qed.

  (** ** Per-producer order *)
  Definition contrib (i : agent) (es : list event) (p : nat) : list T :=
    match nth_error (reservers es) p with
    | Some j => if Nat.eqb i j then match committed es p with Some v => [v] | None => [] end else []
    | None => []
    end.

  Lemma reservers_grow e (es : list event) p : p < length (reservers es) ->
    nth_error (reservers (e :: es)) p = nth_error (reservers es) p.
  Proof. intros Hp. destruct e; simpl; auto. now apply nth_error_app1. Qed.

  Lemma flat_map_ext_in {A C} (f g : A -> list C) l : (forall x, In x l -> f x = g x) -> flat_map f l = flat_map g l.
  Proof. induction l; simpl; intros H; auto. rewrite H by now left. f_equal. apply IHl. intros x Hx. apply H. now right. Qed.

  Lemma flat_map_nil {A C} (f : A -> list C) l : (forall x, In x l -> f x = []) -> flat_map f l = [].
  Proof. induction l; simpl; intros H; auto. rewrite H by now left. apply IHl. intros x Hx. apply H. now right. Qed.

  Lemma last_is_nth i l n : last_is i l n = true -> nth_error l n = Some i.
  Proof.
    unfold last_is. destruct (nth_error l n); [|discriminate]. intros H. apply andb_true_iff in H as [H _].
    apply Nat.eqb_eq in H. now subst.
  Qed.

  Lemma last_is_after i l n m : last_is i l n = true -> n < m -> nth_error l m <> Some i.
  Proof.
    intros H1 H2 H3. assert (L : last_is i l n = true) by auto. unfold last_is in H1.
    destruct (nth_error l n); [|discriminate]. apply andb_true_iff in H1 as [_ H1].
    rewrite forallb_forall in H1. pose proof (nth_lt _ _ _ H3) as Hm.
    assert (In i (skipn (S n) l)) as Hin.
    { apply nth_error_In with (n := m - S n). rewrite <- H3.
      rewrite <- (firstn_skipn (S n) l) at 2.
      rewrite nth_error_app2; rewrite firstn_length_le by lia; [reflexivity|lia]. }
    apply H1 in Hin. rewrite Nat.eqb_refl in Hin. discriminate.
  Qed.

  Lemma sent_contrib i es : ring_history W cap pol es -> calm B es ->
    sent_by i es = flat_map (contrib i es) (seq 0 (length (reservers es))).
  Proof.
    induction es as [|e es IH]; intros Hh HC; [reflexivity|].
    assert (Hh' := run_suffix [e] es Hh). assert (HC' := calm_suffix [e] es HC).
    specialize (IH Hh' HC').
    destruct (history_at [] _ _ Hh HC) as (q & q' & h & _ & Hok & Hs & _).
    destruct e; try exact IH.
    - (* Reserve *)
      cbn [sent_by reservers]. rewrite app_length. simpl length. rewrite Nat.add_1_r, seq_S, flat_map_app.
      assert (E : flat_map (contrib i (Reserve i0 :: es)) [0 + length (reservers es)] = []).
      { simpl. unfold contrib. cbn [reservers committed]. rewrite nth_snoc.
        assert (committed es (length (reservers es)) = None) as ->.
        { apply (h_committed_none _ _ _ Hok). rewrite (h_res _ _ _ Hok), reservers_length. lia. }
        now destruct (Nat.eqb i i0). }
      rewrite E, app_nil_r, IH. apply flat_map_ext_in. intros p Hp. apply in_seq in Hp.
      unfold contrib. rewrite reservers_grow by lia. reflexivity.
    - (* Commit *)
      apply commit_inv in Hs as [p Hs]. pose proof (h_entry _ _ _ Hok _ _ Hs) as (E1 & E2 & E3).
      cbn [reservers].
      assert (Hoth : forall n, n <> p -> contrib i (Commit i0 v :: es) n = contrib i es n).
      { intros n Hn. unfold contrib. cbn [reservers]. now rewrite (committed_other _ _ _ _ p). }
      pose proof (last_is_bound _ _ _ E1) as Hb.
      replace (length (reservers es)) with (p + (1 + (length (reservers es) - S p))) by lia.
      rewrite !seq_app, !flat_map_app. simpl (0 + p).
      rewrite (flat_map_ext_in _ (contrib i es) (seq 0 p)).
      2:{ intros n Hn. apply in_seq in Hn. apply Hoth. lia. }
      rewrite (flat_map_ext_in _ (contrib i es) (seq (p + 1) _)).
      2:{ intros n Hn. apply in_seq in Hn. apply Hoth. lia. }
      replace (length (reservers es)) with (p + (1 + (length (reservers es) - S p))) in IH by lia.
      rewrite !seq_app, !flat_map_app in IH. simpl (0 + p) in IH.
      assert (Ep : flat_map (contrib i es) (seq p 1) = []).
      { simpl. unfold contrib. rewrite E2. destruct (nth_error (reservers es) p); auto. now destruct (Nat.eqb i a). }
      rewrite Ep in IH. simpl in IH.
      assert (Ep' : flat_map (contrib i (Commit i0 v :: es)) (seq p 1) = if Nat.eqb i i0 then [v] else []).
      { simpl. unfold contrib. cbn [reservers committed]. rewrite E1, (last_is_nth _ _ _ E1).
        now destruct (Nat.eqb i i0). }
      rewrite Ep'. cbn [sent_by]. rewrite IH. destruct (Nat.eqb_spec i i0) as [->|Hne]; [|reflexivity].
      rewrite (flat_map_nil (contrib i0 es) (seq (p + 1) _)).
      2:{ intros n Hn. apply in_seq in Hn. unfold contrib.
          destruct (nth_error (reservers es) n) as [j|] eqn:E; auto.
          destruct (Nat.eqb_spec i0 j) as [<-|]; auto. exfalso.
          apply (last_is_after _ _ _ n E1); auto. lia. }
      now rewrite !app_nil_r.
  Qed.

  Lemma received_contrib i es : ring_history W cap pol es -> calm B es ->
    received_from i es = flat_map (contrib i es) (seq 0 (count is_take es)).
  Proof.
    induction es as [|e es IH]; intros Hh HC; [reflexivity|].
    assert (Hh' := run_suffix [e] es Hh). assert (HC' := calm_suffix [e] es HC).
    specialize (IH Hh' HC'). pose proof (counts_ok _ Hh' HC') as Hcnt.
    assert (Hst : flat_map (contrib i (e :: es)) (seq 0 (count is_take es)) = received_from i es).
    { rewrite IH. apply flat_map_ext_in. intros p Hp. apply in_seq in Hp.
      unfold contrib. rewrite reservers_grow by (rewrite reservers_length; lia).
      pose proof (fifo_list _ Hh' HC') as Hf.
      assert (E : nth_error (map (committed es) (seq 0 (count is_take es))) p = Some (committed es p)).
      { apply map_nth_error. rewrite (nth_error_nth' _ 0) by (rewrite seq_length; lia). now rewrite seq_nth by lia. }
      rewrite <- Hf, nth_error_map in E.
      destruct (nth_error (taken_values es) p) as [w|]; [|discriminate]. injection E as E.
      rewrite <- E. now rewrite (committed_stable _ _ _ _ Hh HC (eq_sym E)). }
    destruct (is_take e) eqn:Et.
    - destruct e; try discriminate. cbn [received_from count is_take].
      simpl (1 + _). rewrite seq_S, flat_map_app, Hst. simpl (0 + _). cbn [flat_map]. rewrite app_nil_r.
      unfold contrib. cbn [reservers committed].
      rewrite (fifo_nth [] _ _ _ Hh HC).
      destruct (nth_error (reservers es) (count is_take es)) as [j|]; [|now rewrite app_nil_r].
      destruct (Nat.eqb i j); [reflexivity|now rewrite app_nil_r].
    - assert (E1 : count is_take (e :: es) = count is_take es) by (simpl; now rewrite Et).
      rewrite E1, Hst. destruct e; try discriminate; reflexivity.
  Qed.

  Lemma per_producer i es : ring_history W cap pol es -> calm B es ->
    exists rest, sent_by i es = received_from i es ++ rest.
  Proof.
    intros Hh HC. rewrite sent_contrib, received_contrib by auto.
    pose proof (counts_ok _ Hh HC).
    replace (length (reservers es)) with (count is_take es + (count is_reserve es - count is_take es))
      by (rewrite reservers_length; lia).
    rewrite seq_app, flat_map_app. eauto.
  Qed.

  (** ** Capacity, Full, Empty, closing, len *)
  Lemma capacity_bound es2 es1 : ring_history W cap pol (es2 ++ es1) -> calm B (es2 ++ es1) ->
    count is_take es1 <= count is_reserve es1 <= count is_take es1 + cap.
  Proof. intros Hh HC. apply counts_ok; [eapply run_suffix; eauto|eapply calm_suffix; eauto]. Qed.

  Lemma occ es q : hist_ok es q -> occupancy es = qlen q.
  Proof. intros []. unfold occupancy, qlen. lia. Qed.

  Lemma full_true es2 i es1 : ring_history W cap pol (es2 ++ RetFull i :: es1) ->
    calm B (es2 ++ RetFull i :: es1) ->
    exists es0, In es0 (moments i es1) /\ occupancy es0 = cap /\ closed_in es0 = false.
  Proof.
    intros Hh HC. destruct (history_at _ _ _ Hh HC) as (q & q' & h & _ & Hok & Hs & es0 & q0 & Hm & Hok0 & Hob).
    simpl in Hm, Hob. exists es0. rewrite (occ _ _ Hok0), <- (h_closed _ _ _ Hok0). tauto.
  Qed.

  Lemma empty_true es2 i es1 : ring_history W cap pol (es2 ++ RetEmpty i :: es1) ->
    calm B (es2 ++ RetEmpty i :: es1) ->
    exists es0, In es0 (moments i es1) /\ committed es0 (count is_take es0) = None.
  Proof.
    intros Hh HC. destruct (history_at _ _ _ Hh HC) as (q & q' & h & _ & Hok & Hs & es0 & q0 & Hm & Hok0 & Hob).
    simpl in Hm, Hob. exists es0. split; auto. rewrite <- (h_take _ _ _ Hok0).
    destruct (nth_error (qlog q0) (qtaken q0)) as [e|] eqn:E.
    - pose proof (h_entry _ _ _ Hok0 _ _ E) as He. pose proof (h_done _ _ _ Hok0 _ _ E) as Hd.
      destruct e as [j|j v|v|j v|v]; simpl in He, Hd; try tauto; try (exfalso; lia).
      exfalso. apply (proj1 Hob). now exists v.
    - apply nth_error_None in E. apply (h_committed_none _ _ _ Hok0). auto.
  Qed.

  Lemma push_closed_true es2 i es1 : ring_history W cap pol (es2 ++ RetPushClosed i :: es1) ->
    calm B (es2 ++ RetPushClosed i :: es1) ->
    exists es0, In es0 (moments i es1) /\ closed_in es0 = true.
  Proof.
    intros Hh HC. destruct (history_at _ _ _ Hh HC) as (q & q' & h & _ & Hok & Hs & es0 & q0 & Hm & Hok0 & Hob).
    simpl in Hm, Hob. exists es0. rewrite <- (h_closed _ _ _ Hok0). tauto.
  Qed.

  Lemma pop_closed_true es2 i es1 : ring_history W cap pol (es2 ++ RetPopClosed i :: es1) ->
    calm B (es2 ++ RetPopClosed i :: es1) ->
    exists es0, In es0 (moments i es1) /\ closed_in es0 = true /\ count is_take es0 = count is_reserve es0.
  Proof.
    intros Hh HC. destruct (history_at _ _ _ Hh HC) as (q & q' & h & _ & Hok & Hs & es0 & q0 & Hm & Hok0 & Hob).
    simpl in Hm, Hob. exists es0. rewrite <- (h_closed _ _ _ Hok0). destruct Hob as [H1 H2].
    repeat split; auto. unfold qlen in H2.
    pose proof (h_order _ _ _ Hok0). pose proof (h_res _ _ _ Hok0). pose proof (h_take _ _ _ Hok0). lia.
  Qed.

  Lemma reserve_not_closed es2 i es1 : ring_history W cap pol (es2 ++ Reserve i :: es1) ->
    calm B (es2 ++ Reserve i :: es1) -> closed_in es1 = false /\ occupancy es1 < cap.
  Proof.
    intros Hh HC. destruct (history_at _ _ _ Hh HC) as (q & q' & h & _ & Hok & Hs & _).
    apply reserve_inv in Hs. rewrite <- (h_closed _ _ _ Hok), (occ _ _ Hok). unfold qlen.
    pose proof (h_order _ _ _ Hok). split; [tauto|lia].
  Qed.

  Lemma moment_suffix i es0 (es : list event) : In es0 (moments i es) -> exists es', es = es' ++ es0.
  Proof.
    induction es as [|e es IH]; simpl.
    - intros [<-|[]]. now exists [].
    - intros [<-|H]; [now exists []|]. destruct (is_invoke i e); [destruct H|].
      destruct (IH H) as [es' ->]. now exists (e :: es').
  Qed.

  Lemma closed_mono es' (es0 : list event) : closed_in es0 = true -> closed_in (es' ++ es0) = true.
  Proof. intros H. unfold closed_in. rewrite existsb_app. unfold closed_in in H. now rewrite H, orb_true_r. Qed.

  Lemma taken_all_before_closed es2 i es1 n v :
    ring_history W cap pol (es2 ++ RetPopClosed i :: es1) ->
    calm B (es2 ++ RetPopClosed i :: es1) ->
    committed (es2 ++ RetPopClosed i :: es1) n = Some v -> n < count is_take es1.
  Proof.
    intros Hh HC Hn.
    destruct (pop_closed_true _ _ _ Hh HC) as (es0 & Hm & Hc & Hcnt).
    apply moment_suffix in Hm as [es' ->].
    destruct (history_explained _ Hh HC) as (q & hist & _ & Hok).
    assert (Hlt : n < length (qlog q)).
    { destruct (Nat.lt_ge_cases n (length (qlog q))) as [|Hge]; auto.
      rewrite (h_committed_none _ _ _ Hok n Hge) in Hn. discriminate. }
    rewrite (h_res _ _ _ Hok) in Hlt.
    (* no reservation after the close *)
    assert (Hno : forall es3, ring_history W cap pol (es3 ++ es0) -> calm B (es3 ++ es0) ->
              count is_reserve (es3 ++ es0) = count is_reserve es0).
    { induction es3 as [|e es3 IH]; intros Hh3 HC3; auto. cbn [app count].
      rewrite IH; [|apply (run_suffix [e]); auto|apply (calm_suffix [e]); auto].
      destruct e; auto. exfalso.
      destruct (reserve_not_closed [] i0 (es3 ++ es0) Hh3 HC3) as [Hf _].
      rewrite (closed_mono es3 es0 Hc) in Hf. discriminate. }
    replace (es2 ++ RetPopClosed i :: es' ++ es0) with ((es2 ++ RetPopClosed i :: es') ++ es0) in *
      by now rewrite <- app_assoc.
    rewrite Hno in Hlt by auto.
    assert (Hle : count is_take es0 <= count is_take (es' ++ es0)).
    { clear. induction es'; simpl; lia. }
    lia.
  Qed.

  Lemma committed_persist es2 es1 n w : ring_history W cap pol (es2 ++ es1) -> calm B (es2 ++ es1) ->
    committed es1 n = Some w -> committed (es2 ++ es1) n = Some w.
  Proof.
    induction es2 as [|e es2 IH]; intros Hh HC H; auto.
    simpl. apply committed_stable; auto. apply IH; auto;
    [apply (run_suffix [e]); auto|apply (calm_suffix [e]); auto].
  Qed.

  Lemma drained_before_closed es2 i es1 n v :
    ring_history W cap pol (es2 ++ RetPopClosed i :: es1) ->
    calm B (es2 ++ RetPopClosed i :: es1) ->
    committed (es2 ++ RetPopClosed i :: es1) n = Some v -> nth_error (taken_values es1) n = Some v.
  Proof.
    intros Hh HC Hn. pose proof (taken_all_before_closed _ _ _ _ _ Hh HC Hn) as Hlt.
    assert (Hh1 : ring_history W cap pol es1).
    { apply (run_suffix (es2 ++ [RetPopClosed i])). now rewrite <- app_assoc. }
    assert (HC1 : calm B es1).
    { apply (calm_suffix (es2 ++ [RetPopClosed i])). now rewrite <- app_assoc. }
    pose proof (fifo_list _ Hh1 HC1) as Hf.
    assert (E : nth_error (map (committed es1) (seq 0 (count is_take es1))) n = Some (committed es1 n)).
    { apply map_nth_error. rewrite (nth_error_nth' _ 0) by (rewrite seq_length; lia). now rewrite seq_nth by lia. }
    rewrite <- Hf, nth_error_map in E.
    destruct (nth_error (taken_values es1) n) as [w|]; [|discriminate]. injection E as E. f_equal.
    assert (committed (es2 ++ RetPopClosed i :: es1) n = Some w) as E2.
    { apply (committed_persist es2 (RetPopClosed i :: es1)); auto. }
    congruence.
  Qed.

  Lemma pop_closed_occ es2 i es1 : ring_history W cap pol (es2 ++ RetPopClosed i :: es1) ->
    calm B (es2 ++ RetPopClosed i :: es1) ->
    exists es0, In es0 (moments i es1) /\ closed_in es0 = true /\ occupancy es0 = 0.
  Proof.
    intros Hh HC. destruct (pop_closed_true _ _ _ Hh HC) as (es0 & H1 & H2 & H3).
    exists es0. repeat split; auto. unfold occupancy. lia.
  Qed.

  Lemma moments_head i (es : list event) : In es (moments i es).
  Proof. destruct es; simpl; auto. Qed.

  Lemma push_after_close es2 i e es1 :
    ring_history W cap pol (es2 ++ e :: es1) -> calm B (es2 ++ e :: es1) ->
    e = Reserve i \/ e = RetFull i \/ e = RetPushClosed i ->
    (forall es0, In es0 (moments i es1) -> closed_in es0 = true) ->
    e = RetPushClosed i.
  Proof.
    intros Hh HC [-> | [-> | ->]] Hall; auto; exfalso.
    - destruct (reserve_not_closed _ _ _ Hh HC) as [Hc _]. rewrite Hall in Hc; [discriminate|apply moments_head].
    - destruct (full_true _ _ _ Hh HC) as (es0 & H1 & _ & H2). rewrite Hall in H2; [discriminate|auto].
  Qed.

  Lemma empty_open es2 i es1 : ring_history W cap pol (es2 ++ RetEmpty i :: es1) ->
    calm B (es2 ++ RetEmpty i :: es1) ->
    exists es0, In es0 (moments i es1) /\ committed es0 (count is_take es0) = None /\
      (closed_in es0 = false \/ 0 < occupancy es0).
  Proof.
    intros Hh HC. destruct (history_at _ _ _ Hh HC) as (q & q' & h & _ & Hok & Hs & es0 & q0 & Hm & Hok0 & Hob).
    simpl in Hm, Hob. exists es0. split; auto. rewrite <- (h_take _ _ _ Hok0). split.
    - destruct (nth_error (qlog q0) (qtaken q0)) as [e|] eqn:E.
      + pose proof (h_entry _ _ _ Hok0 _ _ E) as He. pose proof (h_done _ _ _ Hok0 _ _ E) as Hd.
        destruct e as [j|j v|v|j v|v]; simpl in He, Hd; try tauto; try (exfalso; lia).
        exfalso. apply (proj1 Hob). now exists v.
      + apply nth_error_None in E. apply (h_committed_none _ _ _ Hok0). auto.
    - rewrite (occ _ _ Hok0), <- (h_closed _ _ _ Hok0). tauto.
  Qed.

  Lemma pop_after_close es2 i v e es1 :
    ring_history W cap pol (es2 ++ e :: es1) -> calm B (es2 ++ e :: es1) ->
    e = Take i v \/ e = RetEmpty i \/ e = RetPopClosed i ->
    (forall es0, In es0 (moments i es1) -> closed_in es0 = true /\ occupancy es0 = 0) ->
    e = RetPopClosed i.
  Proof.
    intros Hh HC [-> | [-> | ->]] Hall; auto; exfalso.
    - destruct (history_at _ _ _ Hh HC) as (q & q' & h & _ & Hok & Hs & _).
      apply take_inv in Hs. assert (Hlt : qtaken q < length (qlog q)) by (apply nth_error_Some; congruence).
      destruct (Hall es1 (moments_head _ _)) as [_ Ho]. rewrite (occ _ _ Hok) in Ho. unfold qlen in Ho. lia.
    - destruct (empty_open _ _ _ Hh HC) as (es0 & H1 & _ & H2). destruct (Hall _ H1) as [H3 H4].
      destruct H2; [congruence|lia].
  Qed.

  Lemma close_result s es i s' e : run P pol es s -> calm B es ->
    step P pol s (AClose i false) = Some (s', e) -> e = Some (Closing i (negb (closed_in es))).
  Proof.
    intros Hr HC Hs. destruct (run_good _ _ _ Hwf _ _ Hr HC) as (q & hist & g & HI & HE).
    simpl in Hs. destruct (st_agents s i); try discriminate. injection Hs as _ <-.
    rewrite (i_tail _ _ _ _ _ _ (inv_s _ _ _ _ _ _ _ HI)), <- (h_closed _ _ _ (explains_hist _ _ _ _ _ _ _ HE)).
    do 2 f_equal. pose proof (closed_test W cap Hwf (qclosed q) (length (qlog q))) as Ht.
    destruct (qclosed q); simpl in *; destruct (N.land _ _ =? 0)%N eqn:E; auto.
  Qed.

  Lemma len_true es2 i n es1 : ring_history W cap pol (es2 ++ RetLen i n :: es1) ->
    calm B (es2 ++ RetLen i n :: es1) -> closed_in es1 = false ->
    exists es0, In es0 (moments i es1) /\ N.to_nat n = occupancy es0 /\ occupancy es0 <= cap.
  Proof.
    intros Hh HC Hcl. destruct (history_at _ _ _ Hh HC) as (q & q' & h & _ & Hok & Hs & es0 & q0 & Hm & Hok0 & Hob).
    simpl in Hm, Hob. exists es0. rewrite (occ _ _ Hok0). split; auto.
    destruct Hob as [Hob|Hob].
    - exfalso. rewrite (h_closed _ _ _ Hok0) in Hob. apply moment_suffix in Hm as [es' ->].
      rewrite (closed_mono es' es0 Hob) in Hcl. discriminate.
    - split; auto. unfold qlen. pose proof (h_order _ _ _ Hok0). lia.
  Qed.

  (** ** Elements *)
  Lemma fresh_small p : (N.of_nat p < span W cap)%N -> fresh p <-> p < cap.
  Proof.
    intros Hp. pose proof (cap_pos _ _ Hwf) as Hc. unfold fresh_pos.
    assert (Hlt : (N.of_nat (p / cap) < ngen W cap)%N).
    { unfold span in Hp. rewrite Nat2N.inj_div. apply N.div_lt_upper_bound; lia. }
    rewrite N.mod_small by auto. split; intros H.
    - assert (p / cap = 0) as H0 by lia. apply Nat.div_small_iff in H0; lia.
    - rewrite Nat.div_small; auto.
  Qed.

  Lemma handout_element es2 i v es1 : ring_history W cap pol (es2 ++ HandOut i v :: es1) ->
    calm B (es2 ++ HandOut i v :: es1) -> (N.of_nat (count is_reserve es1) <= span W cap)%N ->
    exists n, last_is i (reservers es1) n = true /\ committed es1 n = None /\
      ((n < cap /\ v = new) \/
       (cap <= n /\ exists old, released es1 (n - cap) = Some old /\ v = rec old)).
  Proof.
    intros Hh HC Hsp. destruct (history_at _ _ _ Hh HC) as (q & q' & h & _ & Hok & Hs & _).
    apply handout_inv in Hs as (p & H1 & H2 & H3). exists p. destruct (h_entry _ _ _ Hok _ _ H1) as [E1 E2].
    pose proof (nth_lt _ _ _ H1) as Hlt. rewrite (h_res _ _ _ Hok) in Hlt.
    split; auto. split; auto. destruct H2 as [[Hf ->]|(Hf & Hc & old & Ho & ->)].
    - left. split; auto. apply fresh_small; auto. lia.
    - right. split; auto. exists old. split; auto. apply (h_entry _ _ _ Hok _ _ Ho).
  Qed.

  (** Without the bound on the total: either a new or a recycled element. *)
  Lemma handout_any es2 i v es1 : ring_history W cap pol (es2 ++ HandOut i v :: es1) ->
    calm B (es2 ++ HandOut i v :: es1) ->
    exists n, last_is i (reservers es1) n = true /\ committed es1 n = None /\
      ((n < cap /\ v = new) \/
       (cap <= n /\ exists old, released es1 (n - cap) = Some old /\ v = rec old)).
  Proof.
    intros Hh HC. destruct (history_at _ _ _ Hh HC) as (q & q' & h & _ & Hok & Hs & _).
    apply handout_inv in Hs as (p & H1 & H2 & H3). exists p. destruct (h_entry _ _ _ Hok _ _ H1) as [E1 E2].
    split; auto. split; auto. destruct H2 as [[Hf ->]|(Hf & Hc & old & Ho & ->)].
    - left. split; auto. tauto.
    - right. split; auto. exists old. split; auto. apply (h_entry _ _ _ Hok _ _ Ho).
  Qed.

  Lemma no_overwrite es i l v : ring_history W cap pol es -> calm B es ->
    (N.of_nat (count is_reserve es) <= span W cap)%N -> ~ In (Overwrite i l v) es.
  Proof.
    intros Hh HC Hsp Hin. apply in_split in Hin as (es2 & es1 & ->).
    destruct (history_at _ _ _ Hh HC) as (q & q' & h & _ & Hok & Hs & _).
    apply overwrite_inv in Hs as (p & H1 & H3 & H4 & H5 & H6).
    pose proof (nth_lt _ _ _ H1) as Hlt. rewrite (h_res _ _ _ Hok) in Hlt.
    assert (Hle : count is_reserve es1 <= count is_reserve (es2 ++ Overwrite i l v :: es1)).
    { clear. induction es2; simpl; lia. }
    apply fresh_small in H3; lia.
  Qed.

  Lemma commit_content es2 i v es1 : ring_history W cap pol (es2 ++ Commit i v :: es1) ->
    calm B (es2 ++ Commit i v :: es1) -> content i es1 = Some v.
  Proof.
    intros Hh HC. destruct (history_at _ _ _ Hh HC) as (q & q' & h & _ & Hok & Hs & _).
    apply commit_inv in Hs as [p Hs]. apply (h_entry _ _ _ Hok _ _ Hs).
  Qed.

  Lemma release_content es2 i v es1 : ring_history W cap pol (es2 ++ Release i v :: es1) ->
    calm B (es2 ++ Release i v :: es1) -> content i es1 = Some v.
  Proof.
    intros Hh HC. destruct (history_at _ _ _ Hh HC) as (q & q' & h & _ & Hok & Hs & _).
    apply release_inv in Hs as [p Hs]. apply (h_entry _ _ _ Hok _ _ Hs).
  Qed.

  Lemma no_ub es i : ring_history W cap pol es -> calm B es -> ~ In (UB i) es.
  Proof.
    intros Hh HC Hin. apply in_split in Hin as (es2 & es1 & ->).
    destruct (history_at _ _ _ Hh HC) as (q & q' & h & _ & _ & Hs & _). inversion Hs.
  Qed.

  (** ** State-level facts *)
  Lemma exclusive s es i j a b : run P pol es s -> calm B es -> i <> j ->
    accesses P (st_agents s i) = Some a -> accesses P (st_agents s j) = Some b -> a <> b.
  Proof.
    intros Hr HC Hij Ha Hb.
    assert (Hent : forall q hist g k c, Inv W cap s es (q :: hist) q g -> accesses P (st_agents s k) = Some c ->
      exists e, nth_error (qlog q) (g k) = Some e /\ owner e = Some k /\ c = ifield cap (g k)).
    { intros q hist g k c HI Hk. pose proof (inv_a _ _ _ _ _ _ _ HI k) as HA.
      destruct (st_agents s k); try discriminate; cbn [accesses] in Hk; cbn [AInv] in HA.
      - destruct HA as [-> Hn]. rewrite (idx_gen_enc W cap Hwf) in Hk. injection Hk as <-. eexists. eauto.
      - destruct HA as [-> [v Hn]]. injection Hk as <-. eexists. eauto.
      - destruct HA as [-> [v Hn]]. injection Hk as <-. eexists. eauto. }
    destruct (run_good _ _ _ Hwf _ _ Hr HC) as (q & hist & g & HI & HE).
    destruct (Hent _ _ _ _ _ HI Ha) as (e1 & N1 & O1 & ->).
    destruct (Hent _ _ _ _ _ HI Hb) as (e2 & N2 & O2 & ->).
    intros Heq. pose proof (inv_s _ _ _ _ _ _ _ HI) as HS.
    assert (L1 : length (qlog q) <= g i + cap).
    { eapply live_in_window; eauto. intros v ->. discriminate. }
    assert (L2 : length (qlog q) <= g j + cap).
    { eapply live_in_window; eauto. intros v ->. discriminate. }
    pose proof (nth_lt _ _ _ N1). pose proof (nth_lt _ _ _ N2).
    assert (g i = g j) as Hg by (eapply win_distinct; eauto).
    rewrite Hg in N1. rewrite N1 in N2. injection N2 as <-. congruence.
  Qed.

  Lemma idx_gen_fits p : (N.lor (ifield cap p) (gfield W cap p * gword cap) + 1 < 2 ^ W)%N.
  Proof.
    pose proof (enc_lt W cap Hwf p) as Hlt.
    assert (E : N.lor (ifield cap p) (gfield W cap p * gword cap) = enc W cap p).
    { pose proof (field_join (kbits cap) (gfield W cap p) (ifield cap p) (ifield_ltK _ _ Hwf p)) as F.
      unfold gword. rewrite F. unfold CoreArith.enc, CoreArith.word, gword. cbn [N.b2n]. lia. }
    rewrite E. exact Hlt.
  Qed.

  Lemma local_fits p : arithmetic_fits P (PState (enc W cap p)) .
  Proof.
    unfold arithmetic_fits. rewrite (idx_gen_enc W cap Hwf), (P_mod W cap).
    pose proof (enc_lt W cap Hwf p). pose proof (idx_gen_fits p).
    pose proof (ifield_lt _ _ Hwf p). destruct Hwf. repeat split; auto. lia.
  Qed.

  Lemma arith_fits s es i : run P pol es s -> calm B es -> arithmetic_fits P (st_agents s i).
  Proof.
    intros Hr HC. destruct (run_good _ _ _ Hwf _ _ Hr HC) as (q & hist & g & HI & HE).
    pose proof (inv_a _ _ _ _ _ _ _ HI i) as HA. pose proof (local_fits (g i)) as Hf.
    destruct (st_agents s i); try exact I; cbn [AInv] in HA.
    - destruct HA as [-> _]. exact Hf.
    - destruct HA as [[-> _] _]. exact Hf.
    - destruct HA as [-> _]. exact Hf.
    - destruct HA as [-> _]. exact Hf.
    - destruct HA as [[-> _] _]. exact Hf.
  Qed.

  Lemma bounds_ok s es i : run P pol es s -> calm B es -> in_bounds P (st_core s) (st_agents s i).
  Proof.
    intros Hr HC. destruct (run_good _ _ _ Hwf _ _ Hr HC) as (q & hist & g & HI & HE).
    pose proof (inv_a _ _ _ _ _ _ _ HI i) as HA.
    assert (Hf : (ifield cap (g i) < c_len (st_core s))%N).
    { rewrite (i_len _ _ _ _ _ _ (inv_s _ _ _ _ _ _ _ HI)). apply (ifield_lt W cap Hwf). }
    destruct (st_agents s i); try exact I; cbn [AInv] in HA; unfold in_bounds;
      repeat match goal with H : _ /\ _ |- _ => destruct H end;
      try match goal with H : push_local _ _ _ _ _ _ _ _ |- _ => destruct H as [-> _] end;
      try match goal with H : pop_local _ _ _ _ _ _ _ |- _ => destruct H as [-> _] end;
      subst; rewrite ?(idx_gen_enc W cap Hwf); auto.
  Qed.
End Ring.

Lemma exec_run {T} P (pol : policy T) l s es s' es' :
  run P pol es s -> exec P pol s es l = Some (s', es') -> run P pol es' s'.
Proof.
  revert s es; induction l as [|a l IH]; simpl; intros s es Hr H.
  - now injection H as <- <-.
  - destruct (step P pol s a) as [[s1 e]|] eqn:E; [|discriminate].
    eapply IH; [|exact H]. econstructor; eauto.
Qed.

Lemma exec_history {T} W cap (pol : policy T) l es : exec_events W cap pol l = Some es -> ring_history W cap pol es.
Proof.
  unfold exec_events. destruct (exec _ _ _ _ _) as [[s es']|] eqn:E; [|discriminate].
  intros [= ->]. exists s. eapply exec_run; eauto. constructor.
Qed.
