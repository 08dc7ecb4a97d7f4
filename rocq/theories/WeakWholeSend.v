(** A whole channel on weak memory: room is always announced to whoever waits for it. *)
From Coq Require Import List Bool Arith NArith Lia.
From Verif Require Import Word QueueSpec CoreModel CoreArith CoreInv RingSpec HistoryFacts RingFacts ChainFacts WaitCellModel WaitList WaitListSpec
  WaitQueueModel WaitQueueSpec WaitQueueFacts WaitQueueSafety WaitQueueWake WaitQueueStored.
From Verif Require ChannelSpec ChannelSend ChannelEvents ChannelInv.
From Verif Require Import ChannelFacts.
From Verif Require Import WeakModel WeakSpec WeakInv WeakFacts WeakCellModel WeakQueueModel WeakQueueFacts WeakQueueInv WeakQueueData
  WeakChannelModel WeakChannelSpec WeakWholeModel WeakChannelFacts WeakChannelInv WeakWholeFacts WeakWholeLink.
From Verif Require Import History.
Import ListNotations.

(** ** Elements that a handle holds, on the ring *)
Definition holder (p : pc) : bool := match p with QHold _ => true | _ => false end.
Definition undecided (p : pc) : bool := match p with PStart | PState _ | PCas _ | PHead _ | PReload => true | _ => false end.
Section Ring.
  Context {T : Type}.
  Variables (P : params) (pol : policy T) (o : orders).
  Notation event := (event T).

  Definition took (i : agent) (e : event) : bool := match e with Take j _ => Nat.eqb j i | _ => false end.
  Definition let_go (i : agent) (e : event) : bool := match e with QueueSpec.Release j _ => Nat.eqb j i | _ => false end.
  Definition b2n (b : bool) : nat := if b then 1 else 0.
  Definition ohist (e : option event) : list event := match e with Some x => [x] | None => [] end.

  (** How the position of the agent changes. *)
  Definition hold_ok (i : agent) (p p' : pc) (e : option event) : Prop :=
    (exists k, e = Some (UB k)) \/
    (forall k, k <> i -> count (took k) (ohist e) = 0 /\ count (let_go k) (ohist e) = 0) /\
    b2n (holder p') + count (let_go i) (ohist e) = b2n (holder p) + count (took i) (ohist e) /\
    (undecided p = true -> (e = None /\ undecided p' = true) \/ e = Some (Reserve i) \/ e = Some (RetFull i) \/ e = Some (RetPushClosed i)).
  Lemma cstep_hold c i p spur c' p' e : holder p = false -> cstep P pol c i p spur = (c', p', e) -> hold_ok i p p' e.
  Proof.
    intros Hp H. destruct p; try discriminate Hp; cbn [cstep] in H; unfold push_top in H;
      destruct (negb (N.land (c_tail c) (p_closed P) =? 0)%N);
      repeat match type of H with context [match ?x with _ => _ end] => destruct x end;
      injection H as <- <- <-; try (left; eexists; reflexivity); right; cbn; rewrite ?Nat.eqb_refl; repeat split; intros; try discriminate; eauto.
    all: rewrite (proj2 (Nat.eqb_neq i k)) by congruence; reflexivity.
  Qed.
  Lemma step_hold s a s' e : weak_step P pol o s a = Some (s', e) ->
    (exists i, a = XInvoke i OpPush /\ w_pcs s i = Idle /\ w_pcs s' i = PStart /\ e = Some (Invoke i OpPush)) \/
    hold_ok (WeakFacts.actor a) (w_pcs s (WeakFacts.actor a)) (w_pcs s' (WeakFacts.actor a)) e.
  Proof.
    intros H. destruct a as [i op|i k spur|i v|i|i|i b|i j]; cbn [WeakFacts.actor].
    - cbn in H. destruct op; try discriminate; destruct (w_pcs s i) eqn:E; try discriminate; injection H as <- <-; cbn [w_pcs local]; [left; exists i; rewrite upd_same; auto|..];
        rewrite upd_same; right; right; cbn; repeat split; intros; discriminate.
    - right. cbn [weak_step] in H. unfold WeakModel.wstep, load_tail, load_head, load_state in H.
      destruct (w_pcs s i) eqn:Ep; try discriminate.
      all: repeat match type of H with
         | context [WeakModel.readable ?a ?b ?c] => destruct (WeakModel.readable a b c); [|discriminate]
         | context [if ?b then _ else _] => destruct b
         | context [WeakModel.access ?a ?b ?c] => destruct (WeakModel.access a b c) eqn:?; [|unfold race in H; injection H as <- <-; left; eexists; reflexivity]
         | context [cstep ?P ?pol ?c ?i ?p ?b] => destruct (cstep P pol c i p b) as [[c' p'] e'] eqn:Ec
         end; injection H as <- <-; cbn [w_pcs local rmw_tail rmw_head]; rewrite upd_same; eapply cstep_hold; eauto.
    - right. cbn in H. destruct (w_pcs s i) eqn:Ep; try discriminate;
        (destruct (WeakModel.access s i (r_idx r)); [injection H as <- <-; cbn [w_pcs local]; rewrite upd_same|
           unfold race in H; injection H as <- <-; left; eexists; reflexivity]);
        right; cbn; repeat split; intros; discriminate.
    - right. cbn in H. destruct (w_pcs s i) eqn:Ep; try discriminate; unfold store_state in H;
        (match type of H with context [Nat.eqb ?a ?b] => destruct (Nat.eqb a b) end; [injection H as <- <-|unfold race in H; injection H as <- <-; left; eexists; reflexivity]);
        cbn [w_pcs local]; rewrite upd_same; destruct (s_value _); try (left; eexists; reflexivity); right; cbn; rewrite ?Nat.eqb_refl; repeat split; intros; try discriminate.
      rewrite (proj2 (Nat.eqb_neq i k)) by congruence; reflexivity.
    - right. cbn in H. destruct (w_pcs s i) eqn:Ep; try discriminate. injection H as <- <-. cbn [w_pcs local]. rewrite upd_same.
      right; cbn; repeat split; intros; discriminate.
    - right. cbn in H. destruct (w_pcs s i) eqn:Ep; try discriminate. destruct (core_close P (w_core s) b) as [c' x].
      destruct b; injection H as <- <-; cbn [w_pcs local rmw_tail]; rewrite upd_same; right; cbn; repeat split; intros; discriminate.
    - right. injection H as <- <-. cbn [w_pcs]. right. cbn. repeat split; auto.
  Qed.

  Lemma count_split f (a b : list event) : count f (a ++ b) = count f a + count f b.
  Proof. induction a as [|x a IH]; simpl; [reflexivity|rewrite IH; lia]. Qed.
  Lemma ocons_app e (es : list event) : CoreModel.ocons e es = ohist e ++ es.
  Proof. destruct e; reflexivity. Qed.
  Lemma holds_run es s : weak_run P pol o es s -> (forall k, ~ In (UB k) es) ->
    forall i, count (took i) es = count (let_go i) es + b2n (holder (w_pcs s i)).
  Proof.
    induction 1 as [|es s a s' e Hr IH Hs]; intros Hub i; [reflexivity|].
    assert (Hub' : forall k, ~ In (UB k) es) by (intros k Hk; apply (Hub k); destruct e; cbn; auto). specialize (IH Hub' i).
    rewrite ocons_app, !count_split. pose proof Hs as Hs0. apply step_pc in Hs0 as [Hoth _].
    destruct (step_hold _ _ _ _ Hs) as [(j & -> & E1 & E2 & ->)|[[k ->]|(H1 & H2 & _)]].
    - cbn [ohist count took let_go]. destruct (Nat.eq_dec i j) as [->|Hn]; [rewrite E2, E1 in *; cbn in *; lia|]. rewrite (Hoth i) by (cbn; congruence). lia.
    - exfalso. apply (Hub k). now left.
    - destruct (Nat.eq_dec i (WeakFacts.actor a)) as [->|Hn]; [lia|]. rewrite (Hoth i Hn). destruct (H1 i Hn). lia.
  Qed.

  (** Adding up. *)
  Definition who (e : event) : nat := match e with Take j _ | QueueSpec.Release j _ => j | _ => 0 end.
  Fixpoint total (f : nat -> nat) (n : nat) : nat := match n with 0 => 0 | S n => total f n + f n end.
  Lemma total_ext f g n : (forall i, i < n -> f i = g i) -> total f n = total g n.
  Proof. induction n as [|n IH]; cbn; intros H; [reflexivity|]. rewrite IH, H; auto. Qed.
  Lemma total_add f g n : total (fun i => f i + g i) n = total f n + total g n.
  Proof. induction n as [|n IH]; cbn; [reflexivity|]. lia. Qed.
  Lemma total_one j n : j < n -> total (fun i => b2n (Nat.eqb j i)) n = 1.
  Proof.
    induction n as [|n IH]; [lia|]. intros H. cbn. destruct (Nat.eq_dec j n) as [->|Hn].
    - rewrite Nat.eqb_refl. rewrite (total_ext _ (fun _ => 0)); [|intros i Hi; now rewrite (proj2 (Nat.eqb_neq n i)) by lia].
      clear. replace (total (fun _ => 0) n) with 0; [reflexivity|]. induction n as [|n IH]; cbn; lia.
    - rewrite (proj2 (Nat.eqb_neq j n) Hn), IH by lia. reflexivity.
  Qed.
  Lemma total_zero n : total (fun _ => 0) n = 0.
  Proof. induction n as [|n IH]; cbn; lia. Qed.
  Lemma count_total (es : list event) n : (forall e, In e es -> who e < n) ->
    count is_take es = total (fun i => count (took i) es) n /\ count ChannelSpec.is_release es = total (fun i => count (let_go i) es) n.
  Proof.
    induction es as [|e es IH]; intros H; [now rewrite !total_zero|]. destruct IH as [H1 H2]; [intros x Hx; apply H; now right|].
    specialize (H e (or_introl eq_refl)). cbn [count].
    rewrite (total_ext _ (fun i => b2n (took i e) + count (took i) es)) by (intros; destruct (took i e); reflexivity).
    rewrite (total_ext (fun i => _ + count (let_go i) es) (fun i => b2n (let_go i e) + count (let_go i) es)) by (intros; destruct (let_go i e); reflexivity).
    rewrite !total_add, <- H1, <- H2. destruct e; cbn [is_take ChannelSpec.is_release took let_go b2n who] in *; rewrite ?total_zero, ?total_one by exact H; auto.
  Qed.
  Lemma bound_all (es : list event) : exists n, forall e, In e es -> who e < n.
  Proof.
    induction es as [|e es [n IH]]; [exists 0; intros e []|]. exists (S (n + who e)). intros x [<-|Hx]; [lia|]. specialize (IH x Hx). lia.
  Qed.
  Lemma released_le es s : weak_run P pol o es s -> (forall k, ~ In (UB k) es) -> count ChannelSpec.is_release es <= count is_take es.
  Proof.
    intros Hr Hub. destruct (bound_all es) as [n Hn]. destruct (count_total es n Hn) as [-> ->].
    rewrite (total_ext (fun i => count (took i) es) (fun i => count (let_go i) es + b2n (holder (w_pcs s i)))) by (intros; apply (holds_run _ _ Hr Hub)). rewrite total_add. lia.
  Qed.
  Lemma released_all es s : weak_run P pol o es s -> (forall k, ~ In (UB k) es) -> (forall i, holder (w_pcs s i) = false) -> count ChannelSpec.is_release es = count is_take es.
  Proof.
    intros Hr Hub Hh. destruct (bound_all es) as [n Hn]. destruct (count_total es n Hn) as [-> ->].
    symmetry. apply total_ext. intros i _. rewrite (holds_run _ _ Hr Hub), Hh. cbn. lia.
  Qed.
  Lemma release_source s a s' i v : weak_step P pol o s a = Some (s', Some (QueueSpec.Release i v)) -> a = XDrop i /\ holder (w_pcs s i) = true.
  Proof.
    intros H. destruct (step_hold _ _ _ _ H) as [(j & -> & _ & _ & E)|[[k E]|(H1 & H2 & _)]]; try discriminate.
    destruct a as [j op|j k spur|j v'|j|j|j b|j j']; cbn [WeakFacts.actor] in *.
    - cbn in H. destruct op; try discriminate; destruct (w_pcs s j); try discriminate.
    - exfalso. cbn [weak_step] in H. assert (Hh : holder (w_pcs s j) = false) by (unfold WeakModel.wstep in H; destruct (w_pcs s j); try discriminate; reflexivity).
      rewrite Hh in H2. cbn [ohist count took let_go b2n] in H2. destruct (Nat.eqb_spec i j) as [->|Hn]; [lia|]. specialize (H1 i Hn). cbn in H1. rewrite Nat.eqb_refl in H1. lia.
    - cbn in H. destruct (w_pcs s j); try discriminate; destruct (WeakModel.access s j (r_idx r)); discriminate.
    - cbn in H. destruct (w_pcs s j) eqn:Ep; try discriminate; unfold store_state in H;
        (match type of H with context [Nat.eqb ?a ?b] => destruct (Nat.eqb a b) end; [injection H as <- E|discriminate]); destruct (s_value _); try discriminate.
      injection E as <- <-. split; [reflexivity|now rewrite Ep].
    - cbn in H. destruct (w_pcs s j); discriminate.
    - cbn in H. destruct (w_pcs s j); try discriminate. destruct (core_close P (w_core s) b); destruct b; discriminate.
    - discriminate.
  Qed.
End Ring.

(** ** The ring's part of a step of the receiving side *)
Section Parts.
  Context {T : Type}.
  Variables (P : params) (pol : policy T) (debug : bool) (o : chan_orders) (async : bool).
  Notation ystep := (ystep P pol debug o async).
  Notation yrun := (yrun P pol debug o async).
  Notation rstep := (weak_step P pol (co_ring o)).
  Notation grew := (grew P pol o).
  Notation me y := (rx_agent (y_me y)).

  Definition yacts (y : ystate (T := T)) (a : yaction (T := T)) (x : waction (T := T)) : Prop :=
    match a with
    | ASend j => x = XInvoke (tx_agent j) OpPush
    | APush j k b => x = XStep (tx_agent j) k b
    | AWrite j v => x = XWrite (tx_agent j) v
    | ACommit j => x = XDrop (tx_agent j)
    | APanic j _ => x = XPanic (tx_agent j)
    | AClose j b => x = WeakModel.XClose (tx_agent j) b
    | APoll _ | ATry | AWait _ => x = XInvoke (me y) OpPop
    | ARecv k b => x = XStep (me y) k b
    | ARefWrite i v => x = XWrite (rx_agent i) v
    | ARefDrop i => x = XDrop (rx_agent i)
    | ADropRx b => x = WeakModel.XClose (me y) b
    | _ => False
    end.
  Lemma y_ring_part y a y' l : ystep y a = Some (y', l) ->
    (grew (y_ring y) (y_ring y') /\ ring_events l = []) \/
    exists x r r1 e, yacts y a x /\ grew (y_ring y) r /\ rstep r x = Some (r1, e) /\ grew r1 (y_ring y') /\ ring_events l = ohist e.
  Proof.
    assert (Eyr : forall e, ring_events (yr e) = ohist (T := T) e) by (destruct e; reflexivity).
    assert (Eyc : forall e l', ring_events (yc e ++ l') = ring_events (T := T) l') by (destruct e; reflexivity).
    assert (Eyc' : forall e, ring_events (yc e) = ([] : list (event T))) by (destruct e; reflexivity).
    assert (One : forall x r1 e, yacts y a x -> rstep (y_ring y) x = Some (r1, e) -> y_ring y' = r1 -> ring_events l = ohist e ->
      (grew (y_ring y) (y_ring y') /\ ring_events l = []) \/
      exists x r r1 e, yacts y a x /\ grew (y_ring y) r /\ rstep r x = Some (r1, e) /\ grew r1 (y_ring y') /\ ring_events l = ohist e).
    { intros x r1 e H1 H2 H3 H4. right. exists x, (y_ring y), r1, e. rewrite H3; repeat (split; [first [assumption|apply grew_refl]|]); assumption. }
    intros H. destruct a as [j|j k b|j v|j|j j'|j j'|j x|j j'|j|j b|w| | |k b|x|i v|i|b|p q]; cbn [WeakChannelModel.ystep] in H; unfold ring_step, cell_step, cell_call in H.
    - destruct (y_tx y j); try discriminate. destruct (rstep _ _) as [[r' e]|] eqn:E; [|discriminate]. injection H as <- <-. eapply One; [reflexivity|eassumption|reflexivity|apply Eyr].
    - destruct (y_tx y j); try discriminate. destruct (rstep _ _) as [[r' e]|] eqn:E; [|discriminate]. injection H as <- <-. eapply One; [reflexivity|eassumption|reflexivity|apply Eyr].
    - destruct (y_tx y j); try discriminate. destruct (rstep _ _) as [[r' e]|] eqn:E; [|discriminate]. injection H as <- <-. eapply One; [reflexivity|eassumption|reflexivity|apply Eyr].
    - destruct (y_tx y j); try discriminate. destruct (rstep _ _) as [[r' e]|] eqn:E; [|discriminate]. destruct (kstep _ _ _ _) as [[c' ce]|]; [|discriminate]. injection H as <- <-.
      eapply One; [reflexivity|eassumption|reflexivity|]. now rewrite Eyc, Eyr.
    - destruct (y_tx y j); try discriminate. destruct (y_tx y j'); try discriminate. destruct (w_pcs _ _); try discriminate. injection H as <- <-. left. split; [apply xsync_grew|reflexivity].
    - destruct (y_tx y j); try discriminate. destruct (y_tx y j'); try discriminate. destruct (rstep _ _) as [[r' e]|] eqn:E; [|discriminate]. injection H as <- <-.
      right. eexists _, _, _, _. split; [reflexivity|]. split; [apply grew_refl|]. split; [exact E|]. split; [apply xsync_grew|apply Eyr].
    - destruct (y_tx y j); try discriminate; destruct (wcell_step _ _ _ _ _) as [[[c' e] s]|]; try discriminate; injection H as <- <-; left; (split; [apply lock_grew|apply Eyc']).
    - destruct (y_tx y j); try discriminate. destruct (y_tx y j'); try discriminate. injection H as <- <-. left. split; [apply xsync_grew|reflexivity].
    - destruct (y_tx y j); try discriminate. assert (G1 : grew (y_ring y) (if is_release (co_sub o) then xsync P pol o (y_ring y) (tx_agent j) count_agent else y_ring y)) by (destruct (is_release _); [apply xsync_grew|apply grew_refl]).
      left. destruct (Nat.eqb _ _); injection H as <- <-; cbn [y_ring]; (split; [|reflexivity]); [|exact G1].
      eapply grew_trans; [exact G1|]. destruct (co_fence o); [apply xsync_grew|apply grew_refl].
    - destruct (y_tx y j); try discriminate. destruct (rstep _ _) as [[r' e]|] eqn:E; [|discriminate]. destruct (kstep _ _ _ _) as [[c' ce]|]; [|discriminate].
      destruct (async || _); injection H as <- <-; (eapply One; [reflexivity|eassumption|reflexivity|]); now rewrite ?Eyc, Eyr.
    - destruct (rstep _ _) as [[r' e]|] eqn:E; [|discriminate]. destruct (rx_free _); [|discriminate]. injection H as <- <-. eapply One; [reflexivity|eassumption|reflexivity|]. destruct e; reflexivity.
    - destruct (rstep _ _) as [[r' e]|] eqn:E; [|discriminate]. destruct (rx_free _); [|discriminate]. injection H as <- <-. eapply One; [reflexivity|eassumption|reflexivity|apply Eyr].
    - destruct (y_rx y); try discriminate. injection H as <- <-. left. split; [apply grew_refl|reflexivity].
    - destruct (rstep _ _) as [[r' e]|] eqn:E; [|discriminate]. unfold recv_step, got, cell_call in H. right. exists (XStep (me y) k b), (y_ring y), r', e. split; [reflexivity|]. split; [apply grew_refl|]. split; [exact E|].
      repeat match type of H with context [match ?x with _ => _ end] => destruct x eqn:? end; try discriminate; injection H as <- <-; cbn [y_ring set_rx]; (split; [first [apply xsync_grew|apply grew_refl]|]); try reflexivity; try apply Eyr.
      all: try (rewrite Eyc; reflexivity).
    - destruct (y_rx y); try discriminate. destruct (wcell_step _ _ _ _ _) as [[[c' e] s]|]; try discriminate. unfold next_pop, ring_step in H.
      assert (Hcase : (y' = set_rx y (lock_sync P pol o (y_ring y) (me y) s) c' (RWait w) /\ l = yc e) \/
        exists b, match rstep (lock_sync P pol o (y_ring y) (me y) s) (XInvoke (me y) OpPop) with Some (r1, e0) => Some (set_rx y r1 c' (RPop w b), yr e0 ++ yc e) | None => None end = Some (y', l)).
      { destruct e as [[]|]; try (left; injection H as <- <-; auto; fail). destruct r; right; eauto. }
      destruct Hcase as [(-> & ->)|(b & Hb)]; [left; split; [apply lock_grew|apply Eyc']|]. destruct (rstep _ _) as [[r1 e0]|] eqn:E; [|discriminate]. injection Hb as <- <-.
      right. eexists _, _, _, _. split; [reflexivity|]. split; [apply lock_grew|]. split; [exact E|]. split; [apply grew_refl|]. destruct e0; cbn; now rewrite Eyc'.
    - destruct (w_pcs _ _); try discriminate. destruct (rstep _ _) as [[r' e]|] eqn:E; [|discriminate]. injection H as <- <-. eapply One; [reflexivity|eassumption|reflexivity|apply Eyr].
    - destruct (w_pcs _ _); try discriminate. destruct (rstep _ _) as [[r' e]|] eqn:E; [|discriminate]. injection H as <- <-. eapply One; [reflexivity|eassumption|reflexivity|apply Eyr].
    - destruct (rstep _ _) as [[r' e]|] eqn:E; [|discriminate]. destruct (rx_free _); [|discriminate]. injection H as <- <-. eapply One; [reflexivity|eassumption|reflexivity|apply Eyr].
    - left. repeat match type of H with context [if ?x then _ else _] => destruct x end; try discriminate; injection H as <- <-; (split; [|reflexivity]); cbn [y_ring set_rx]; first [apply xsync_grew|apply grew_refl].
  Qed.

  Lemma yacts_actor y a x : yacts y a x ->
    match tx_actor a with Some j => WeakFacts.actor x = tx_agent j | None => exists i, WeakFacts.actor x = rx_agent i end.
  Proof. destruct a; cbn; intros H; try contradiction; subst x; cbn; eauto. Qed.
  Lemma pc_stays y a y' l j : ystep y a = Some (y', l) -> tx_actor a <> Some j -> w_pcs (y_ring y') (tx_agent j) = w_pcs (y_ring y) (tx_agent j).
  Proof.
    intros H Hj. destruct (y_ring_part _ _ _ _ H) as [[G _]|(x & r & r1 & e & H1 & H2 & H3 & H4 & _)]; [now rewrite (gr_pcs _ _ _ _ _ G)|].
    rewrite (gr_pcs _ _ _ _ _ H4). apply step_pc in H3 as [H3 _]. rewrite H3, (gr_pcs _ _ _ _ _ H2); [reflexivity|].
    apply yacts_actor in H1. destruct (tx_actor a) as [k|]; [|destruct H1 as [i H1]]; rewrite H1; intros E; [apply tx_inj in E; congruence|now apply tx_rx in E].
  Qed.
  Lemma takers_rx ys y i v : sound_chan o -> yrun ys y -> In (Take i v) (ring_events ys) -> exists n, i = rx_agent n.
  Proof.
    intros Ho Hr. induction Hr as [|ys y a y' l Hr IH Hs]; [intros []|]. rewrite ring_app, in_app_iff. intros [Hin|Hin]; [|auto].
    destruct (y_ring_part _ _ _ _ Hs) as [[_ E]|(x & r & r1 & e & H1 & H2 & H3 & H4 & E)]; rewrite E in Hin; [destruct Hin|].
    destruct e as [e|]; [|destruct Hin]. destruct Hin as [->|[]]. pose proof (step_source _ _ _ _ _ _ _ H3) as [(k & b & ->) Hp].
    pose proof (gd_stg _ _ _ _ _ _ (good_run P pol debug o async _ _ Ho Hr)) as HS. rewrite (gr_pcs _ _ _ _ _ H2) in Hp.
    apply yacts_actor in H1. destruct (tx_actor a) as [j|]; [|exact H1]. cbn [WeakFacts.actor] in H1. rewrite H1, (sg_pop _ _ HS) in Hp. discriminate.
  Qed.
End Parts.

(** ** The queue's part *)
Lemma q_keep debug es y b y' e i : moves debug es y b y' e -> QInv es y -> (forall k, e <> Some (EUb k)) -> mover b <> i ->
  q_pc y' i = q_pc y i /\ (~ In i (waiting es) -> n_state (q_heap y' i) = n_state (q_heap y i)).
Proof.
  intros Hm HI Hub Hi. split; [apply (moves_others _ _ _ _ _ _ Hm); congruence|]. intros Hw. destruct b as [b sync|j k]; cbn [moves mover] in *.
  - apply (ChannelSend.state_stays debug es y b y' e i HI Hm Hub Hw). destruct b; cbn in Hi; auto; congruence.
  - destruct Hm as [[spur Hm]|(_ & p' & _ & ->)]; [|reflexivity].
    apply (ChannelSend.state_stays debug es y (QStep j spur) y' e i HI Hm Hub Hw). congruence.
Qed.

Section Send.
  Context {T : Type}.
  Variables (W : N) (cap : nat) (pol : policy T) (debug : bool) (o : chan_orders) (async : bool).
  Hypothesis Hwf : wf W cap.
  Hypothesis Ho : sound_chan o.
  Notation P := (core_new W (N.of_nat cap)).
  Notation zcase := (zcase P pol debug o async).
  Notation zrun := (zrun P pol debug o async).
  Notation zstate := (zstate (T := T)).
  Notation sysq s := (wq_sys (z_q s)).
  Notation ring zs := (ring_events (y_events zs)).
  Notation few := (few_pushes (T := T) W cap).
  Notation rpc s i := (w_pcs (y_ring (z_y s)) i).

  (** How the channel is used. *)
  Definition nice (zs : list (zevent (T := T))) (s : zstate) : Prop := few (ring zs) /\ wq_hasty (z_q s) = [] /\ no_cancel zs.
  Lemma few_tail l (es : list (event T)) : few (l ++ es) -> few es.
  Proof. apply few_before. Qed.
  Lemma nice_tail zs s a s' evs : zrun zs s -> zcase s a s' evs -> nice (evs ++ zs) s' -> nice zs s.
  Proof.
    intros Hr Hc (H1 & H2 & H3). repeat split.
    - rewrite y_events_app, ring_app in H1. exact (few_tail _ _ H1).
    - apply (zcase_moves _ _ _ _ _ _ _ _ _ _ Hr Hc H2).
    - intros i Hi. apply (H3 i). apply in_or_app. now right.
  Qed.
  Record known (zs : list (zevent (T := T))) (s : zstate) : Prop := {
    k_link : Link zs s;
    k_gr : Gr 0 (q_events zs);
    k_run : lrun (Gr 0) debug (q_events zs) (sysq s);
    k_inv : QInv (q_events zs) (sysq s);
    k_closed : CInv (q_events zs) (sysq s);
    k_notify : NInv 0 (q_events zs) (sysq s);
    k_fail : no_failure (q_events zs);
    k_ring : weak_run P pol (co_ring o) (ring zs) (y_ring (z_y s));
    k_noub : forall k, ~ In (UB k) (ring zs);
    k_counts : count ChannelSpec.is_release (ring zs) <= count is_take (ring zs) <= count is_reserve (ring zs) }.
  Lemma known_run zs s : zrun zs s -> nice zs s -> known zs s.
  Proof.
    intros Hr (H1 & H2 & H3). pose proof (gr_run _ _ _ _ _ _ _ Hr H2 H3) as HG. destruct (zproj _ _ _ _ _ _ _ Hr) as [Hy Hq].
    pose proof (wq_run 0 _ _ _ Hq H2) as HW. destruct (qrun_safe _ _ _ (Q_run _ _ _ _ HW) (Q_und _ _ _ _ HW) (Q_time _ _ _ _ HW)) as (_ & HI & _).
    destruct HG as (Hc & Hn & Hd). assert (Hso : solo_ok 0 (q_events zs)) by (repeat split; auto; try apply Hc; apply ChannelInv.no_drops_apart, Hd).
    destruct (ninv_lrun 0 debug _ (Gr_tail 0) _ _ (Q_run _ _ _ _ HW) (conj Hc (conj Hn Hd)) Hso) as [HN HF].
    destruct (proj_run _ _ _ _ _ _ _ Hy) as [Hring _].
    assert (Hh : weak_history W cap pol (co_ring o) (ring zs)) by (eexists; eauto).
    assert (Hub : forall k, ~ In (UB k) (ring zs)) by (intros k; exact (weak_no_ub W cap pol (co_ring o) Hwf (so_ring _ Ho) _ k Hh H1)).
    destruct (history_chain W cap pol (co_ring o) Hwf (so_ring _ Ho) _ Hh H1) as (q & Hch). pose proof (chain_counts _ _ _ _ _ _ Hch).
    pose proof (released_le _ _ _ _ _ Hring Hub).
    constructor; auto; [exact (link_run _ _ _ _ _ _ _ Hr H2)|repeat split; auto; apply Hc|exact (Q_run _ _ _ _ HW)|exact (cinv_run _ _ _ (Q_run _ _ _ _ HW) Hc)|lia].
  Qed.

  (** ** Sends that will try again *)
  Definition retry (s : zstate) (i : nat) : Prop :=
    match z_op s i with
    | OAgain _ => True
    | OPush _ => undecided (rpc s (tx_agent (z_by s i))) = true
    | OWait _ => ChannelSend.qretry (q_pc (sysq s) i) (n_state (q_heap (sysq s) i))
    | OCall Queued | OPark => n_state (q_heap (sysq s) i) = Q_WAKING
    | _ => False
    end.

  Lemma retry_y zs s a s' evs i : zcase s a s' evs -> q_act s a = None -> Link zs s -> (forall k, ~ In (UB k) (ring evs)) -> retry s i ->
    retry s' i \/ exists e k, ring evs = [e] /\ (e = Reserve k \/ e = RetFull k \/ e = RetPushClosed k).
  Proof.
    intros Hc Ha HK Hub HR. pose proof (K_use _ _ HK) as HU. unfold retry in HR.
    (* somebody else *)
    assert (Hfr : z_q s' = z_q s -> z_op s' i = z_op s i -> z_by s' i = z_by s i ->
      (forall q, z_op s i = OPush q -> rpc s' (tx_agent (z_by s i)) = rpc s (tx_agent (z_by s i))) -> retry s' i).
    { intros E1 E2 E3 E4. unfold retry. rewrite E1, E2, E3. destruct (z_op s i) eqn:E; auto. rewrite (E4 q eq_refl). exact HR. }
    assert (Hus : forall a' y' l j, ystep P pol debug o async (z_y s) a' = Some (y', l) -> live (z_op s i) = true -> (forall k, tx_actor a' = Some k -> z_use s k = None \/ z_use s k = Some j) -> j <> i ->
       w_pcs (y_ring y') (tx_agent (z_by s i)) = rpc s (tx_agent (z_by s i))).
    { intros a' y' l j Hs Hl Hk Hj. apply (pc_stays _ _ _ _ _ _ _ _ _ _ Hs). intros E. destruct (HU i Hl) as [HU1 _]. destruct (Hk _ E); congruence. }
    assert (Hown : forall j, live (z_op s j) = true -> z_use s (z_by s j) = Some j) by (intros j Hj; apply HU; auto).
    assert (Hlive : forall q, z_op s i = OPush q -> live (z_op s i) = true) by (intros q ->; reflexivity).
    destruct Hc; cbn [q_act] in Ha; try discriminate; try (rewrite H in Ha; discriminate); try (destruct H as [H|H]; rewrite H in Ha; discriminate).
    - left. apply Hfr; auto. intros q E. cbn. assert (H2 : i <> S i) by lia. apply (Hus _ _ _ (S i) H0 (Hlive _ E)); [|auto]. intros k Hk. left. exact (plain_use _ _ _ H Hk).
    - left. destruct (Nat.eq_dec i i0) as [->|Hn]; [rewrite H0 in HR; destruct HR|]. apply Hfr; auto; cbn; now rewrite pset_other.
    - (* DoTry *) left. destruct (Nat.eq_dec i i0) as [->|Hn].
      + unfold retry. cbn. rewrite pset_same. destruct (send_tx _ _ _ _ _ _ _ _ _ H0) as (e & Hs & _ & _ & _).
        cbn [weak_step] in Hs. destruct (w_pcs (y_ring (z_y s)) (tx_agent (z_by s i0))); try discriminate. injection Hs as <- _. cbn [w_pcs local entry_pc]. rewrite upd_same. reflexivity.
      + apply Hfr; auto; cbn; [now rewrite pset_other|]. intros q' E. apply (Hus _ _ _ i0 H0 (Hlive _ E)); [|auto]. intros k [= <-]. right. apply Hown. now rewrite H.
    - (* DoPush *) destruct (after_push_parts async (on_y s y') i0 q l) as (P1 & P2 & _ & P4). destruct (Nat.eq_dec i i0) as [->|Hn].
      + rewrite H in HR. destruct (push_tx _ _ _ _ _ _ _ _ _ _ _ H0) as (e & Hs & -> & _ & _). rewrite y_events_zys in Hub |- *.
        destruct (step_hold _ _ _ _ _ _ _ Hs) as [(j & E & _)|[[k' ->]|(_ & _ & Hd)]]; [discriminate|exfalso; apply (Hub k'); now left|]. cbn [WeakFacts.actor] in Hd.
        destruct (Hd HR) as [[-> Hu]|[->|[->| ->]]]; [left|right; cbn; eauto 7..].
        unfold retry, after_push. cbn [yr z_by on_y z_y]. destruct (w_pcs (y_ring y') (tx_agent (z_by s i0))) eqn:E; try discriminate Hu; cbn [z_op on_y z_by z_y]; rewrite H, E; exact Hu.
      + left. apply Hfr; auto; [|now rewrite P4|].
        * unfold after_push. repeat match goal with |- context [match ?x with _ => _ end] => destruct x end; cbn [z_op on_op on_y finish]; now rewrite ?pset_other.
        * intros q' E. rewrite P1. cbn [on_y z_y]. apply (Hus _ _ _ i0 H0 (Hlive _ E)); [|auto]. intros k' [= <-]. right. apply Hown. now rewrite H.
    - (* DoPanic *) left. destruct (Nat.eq_dec i i0) as [->|Hn].
      + exfalso. rewrite H in HR. cbn [ystep] in H0. unfold ring_step in H0. destruct (y_tx (z_y s) (z_by s i0)); try discriminate. destruct (y_tx (z_y s) j'); try discriminate.
        cbn [weak_step] in H0. destruct (w_pcs (y_ring (z_y s)) (tx_agent (z_by s i0))); discriminate.
      + apply Hfr; auto; cbn; [now rewrite pset_other|]. intros q' E. apply (Hus _ _ _ i0 H0 (Hlive _ E)); [|auto]. intros k [= <-]. right. apply Hown. now rewrite H.
    - left. apply Hfr; auto. intros q E. cbn. apply (Hus _ _ _ (S i) H1 (Hlive _ E)); [discriminate|lia].
    - left. apply Hfr; auto. intros q E. cbn. apply (Hus _ _ _ (S i) H1 (Hlive _ E)); [discriminate|lia].
  Qed.

  Lemma retry_q zs s a s' evs b e i : zcase s a s' evs -> q_act s a = Some b -> moves debug (q_events zs) (sysq s) b (sysq s') e -> q_events evs = olist e ->
    Link zs s -> QInv (q_events zs) (sysq s) -> (forall k, e <> Some (EUb k)) -> (forall k, e <> Some (EAssert k)) -> (forall k, ~ In (ZCancelled k) evs) ->
    z_y s' = z_y s -> z_by s' = z_by s -> retry s i -> retry s' i.
  Proof.
    intros Hc Ha Hm He HK HI Hub Hnf Hnc Ey Eb HR.
    assert (Hw : n_state (q_heap (sysq s) i) = Q_WAKING -> ~ In i (waiting (q_events zs))).
    { intros H1 H2. rewrite (I_wait _ _ HI _ H2) in H1. discriminate H1. }
    assert (Hi0 : i <> 0) by (intros ->; destruct (K_0 _ _ HK) as (_ & _ & E); unfold retry in HR; now rewrite E in HR).
    unfold retry in HR.
    assert (Hfr : mover b <> i -> z_op s' i = z_op s i -> retry s' i).
    { intros Hi E. destruct (q_keep _ _ _ _ _ _ _ Hm HI Hub Hi) as [E1 E2]. unfold retry. rewrite E, Ey, Eb, E1.
      destruct (z_op s i); auto; try (destruct q; auto; now rewrite E2 by auto); [|now rewrite E2 by auto].
      destruct (q_pc (sysq s) i) as [| | | | | | | | |[]|[]| | | | | | | | | | | | | | | | | | | | | | | | |]; cbn in HR |- *; auto; now rewrite E2 by auto. }
    assert (Hex : forall j, mover b = j -> (j <> i -> z_op s' i = z_op s i) -> (j = i -> retry s' i) -> retry s' i).
    { intros j Hj H1 H2. destruct (Nat.eq_dec j i) as [E|E]; [auto|]. apply Hfr; [congruence|auto]. }
    destruct Hc; cbn [q_act] in Ha; try discriminate; cbn [q_events] in He; rewrite ?q_events_zqs in He; try (apply olist_inj in He; subst).
    - injection Ha as <-. apply (Hex i0); [reflexivity|intros; cbn; now rewrite pset_other by congruence|]. intros ->. rewrite H in HR. destruct HR.
    - rewrite H in Ha. injection Ha as <-. apply (Hex i0); [reflexivity|intros; cbn; now rewrite pset_other by congruence|]. intros ->. rewrite H in HR. destruct HR.
    - assert (Hb : b = ACall (QCont i0 w) sync) by (destruct H as [H|H]; rewrite H in Ha; congruence). subst b.
      apply (Hex i0); [reflexivity|intros; cbn; now rewrite pset_other by congruence|]. intros ->. unfold retry. cbn [z_op on_op on_q z_q] in *. rewrite pset_op.
      destruct (q_cont _ _ _ _ _ _ Hm) as (_ & _ & _ & Hp & _). rewrite Hp. cbn.
      assert (HWk : n_state (q_heap (sysq s) i) = Q_WAKING) by (destruct H as [H|H]; rewrite H in HR; exact HR).
      rewrite (ChannelSend.state_stays debug _ _ (QCont i w) _ _ i HI Hm Hub (Hw HWk) I). exact HWk.
    - injection Ha as <-. apply (Hex i0); [reflexivity| |].
      { intros Hne. unfold after_wait. destruct e as [[]|]; try reflexivity; try (cbn; now rewrite pset_other by congruence). destruct r; cbn; now rewrite pset_other by congruence. }
      intros ->. rewrite H in HR. destruct (after_wait_parts (on_q s q') i q e) as (_ & Hz & _). rewrite Hz in Hm. cbn [on_q z_q moves] in Hm. clear Hz.
      destruct Hm as [[spur Hm]|(-> & p' & Hst & Es)].
      + pose proof (ChannelSend.qretry_step _ _ _ _ _ _ Hm (Hub i) (Hnf i) HR) as Q. unfold retry, after_wait.
        destruct e as [[]|]; cbn [ChannelModel.queue_ret] in Q; try contradiction; cbn [z_op on_q z_q]; try (rewrite H; exact Q).
        destruct r; try contradiction; cbn; rewrite pset_op; auto.
      + unfold retry, after_wait. cbn [z_op on_q z_q]. rewrite H, Es. cbn [q_heap with_pc q_pc]. rewrite pset_same.
        stales Hst; rewrite E in HR; cbn in HR; try contradiction. exact HR.
    - injection Ha as <-. apply (Hex i0); [reflexivity| |].
      { intros Hne. destruct e as [[]|]; try reflexivity; try (cbn; now rewrite pset_other by congruence). }
      intros ->. rewrite H in HR. destruct HR.
    - injection Ha as <-. apply (Hex i0); [reflexivity|reflexivity|]. intros ->. rewrite H in HR. destruct HR.
    - destruct (Hnc i0). now left.
    - destruct (Hnc i0). now left.
    - injection Ha as <-. apply (Hex 0); [reflexivity|reflexivity|congruence].
    - injection Ha as <-. apply (Hex 0); [reflexivity|reflexivity|congruence].
    - injection Ha as <-. apply (Hex 0); [reflexivity| |congruence]. intros _. destruct e as [[]|]; reflexivity.
    - injection Ha as <-. apply (Hex 0); [reflexivity| |congruence]. intros _. destruct e as [[]|]; reflexivity.
  Qed.

  (** Where a waiter in the list is. *)
  Lemma waiting_where zs s n : zrun zs s -> nice zs s -> In n (waiting (q_events zs)) ->
    n <> 0 /\
    match z_op s n with
    | OCall Queued | OPark => True
    | OWait _ => match q_pc (sysq s) n with CLoad _ | CLock _ | CLoad2 _ | CUpd _ | SUnlock Wait | SRet Wait => True | _ => False end
    | _ => False
    end.
  Proof.
    intros Hr HN Hin. pose proof (known_run _ _ Hr HN) as K. pose proof (k_link _ _ K) as HK.
    pose proof (I_node _ _ (k_inv _ _ K) n) as HI.
    assert (H0 : n <> 0).
    { intros ->. destruct (K_0 _ _ HK) as (Hx & Hp & _). rewrite Hp in HI.
      destruct (z_rx s); cbn in Hx; try (rewrite Hx in HI; cbn in HI; tauto); destruct (q_pc (sysq s) 0); try discriminate; cbn in HI; tauto. }
    split; [exact H0|]. pose proof (K_q _ _ HK n H0) as Kq.
    assert (Hgone : q_phase (sysq s) n <> PGone).
    { intros E. pose proof (ChannelSend.gone_unqueued _ _ _ (k_run _ _ K) (proj1 (proj1 (k_gr _ _ K))) n E Hin) as Ht.
      apply (proj2 (proj2 HN) n). apply (K_drop _ _ HK). now right. }
    assert (Hdrop : kind (q_pc (sysq s) n) <> KDrop).
    { intros E. destruct (binv_run _ _ _ (k_run _ _ K) (proj1 (proj1 (k_gr _ _ K))) n) as (_ & B2 & _).
      apply (proj2 (proj2 HN) n). apply (K_drop _ _ HK). left. apply ChannelInv.in_drop_in.
      rewrite B2. destruct (q_pc (sysq s) n); try discriminate; reflexivity. }
    pose proof (k_fail _ _ K) as Hf.
    destruct (z_op s n) eqn:Et; cbn [oplink] in Kq; destruct Kq as [K1 K2].
    - rewrite K1, K2 in HI. cbn in HI. tauto.
    - rewrite K1, K2 in HI. cbn in HI. tauto.
    - rewrite K1 in HI. destruct q; cbn in K2; [|destruct K2 as [K2|K2]|]; rewrite K2 in HI; cbn in HI; tauto.
    - rewrite K1 in HI. destruct q; cbn in K2; [|destruct K2 as [K2|K2]|]; rewrite K2 in HI; cbn in HI; tauto.
    - rewrite K1 in HI. destruct q; cbn in K2; [tauto| |exact I]. destruct K2 as [K2|K2]; rewrite K2 in HI; cbn in HI; tauto.
    - destruct (q_pc (sysq s) n) as [| | | | | | | | |[]|[]| | | | | | | | | | | | | | | | | | | | | | | | |]; try discriminate; try exact I; cbn [node_ok] in HI.
      all: repeat match goal with H : _ /\ _ |- _ => destruct H | H : _ \/ _ |- _ => destruct H end; try tauto.
      all: repeat match goal with H : q_phase _ _ = _, H' : rest (q_phase _ _) _ _ |- _ => rewrite H in H'; cbn in H' end; tauto.
    - exact I.
    - congruence.
    - specialize (K2 Hf). rewrite K1 in HI. cbn [node_ok] in HI. destruct (q_phase (sysq s) n); cbn in HI; try tauto; congruence.
  Qed.

  (** ** Room is always announced *)
  Inductive DInv (zs : list (zevent (T := T))) (s : zstate) : Prop :=
  | D_new : count is_reserve (ring zs) = 0 -> DInv zs s
  | D_closed : closed_in (ring zs) = true -> DInv zs s
  | D_room : count ChannelSpec.is_release (ring zs) < count is_reserve (ring zs) -> DInv zs s
  | D_note : z_rx s = XNote -> DInv zs s
  | D_notify : z_rx s = XNotify -> ChannelSend.before_take (q_pc (sysq s) 0) = true -> DInv zs s
  | D_stored : stored (q_events zs) = true -> DInv zs s
  | D_retry i : retry s i -> DInv zs s.

  Lemma zcase_y s a s' evs : zcase s a s' evs -> q_act s a = None ->
    (z_y s' = z_y s /\ y_events evs = [] \/
     exists b, ystep P pol debug o async (z_y s) b = Some (z_y s', y_events evs) /\ (forall x, b = ARefDrop x -> z_rx s' = XNote)) /\
    (z_rx s = XNote -> z_rx s' = XNote) /\ (z_rx s = XNotify -> z_rx s' = XNotify).
  Proof.
    intros Hc Ha. destruct Hc; cbn [q_act] in Ha; try discriminate; try (rewrite H in Ha; discriminate); try (destruct H as [H|H]; rewrite H in Ha; discriminate);
      rewrite ?y_events_zys; cbn [z_y z_rx on_y on_op begin finish on_rx]; (split; [|split; intros Hx; try congruence]); auto.
    - right. exists a. split; [exact H0|]. intros x ->. discriminate.
    - right. eexists. split; [exact H0|discriminate].
    - right. rewrite (proj1 (after_push_parts _ _ _ _ _)). eexists. split; [exact H0|discriminate].
    - rewrite (proj1 (proj2 (proj2 (after_push_parts _ _ _ _ _)))). exact Hx.
    - rewrite (proj1 (proj2 (proj2 (after_push_parts _ _ _ _ _)))). exact Hx.
    - right. eexists. split; [exact H0|discriminate].
    - right. eexists. split; [exact H1|reflexivity].
    - right. eexists. split; [exact H1|discriminate].
  Qed.

  (** What the ring's part of a step does to the invariant. *)
  Lemma dinv_ring zs s a s' evs : zrun zs s -> nice (evs ++ zs) s' -> zcase s a s' evs -> q_act s a = None ->
    DInv (evs ++ zs) s' \/
    ((forall k e, ring evs = [e] -> e <> Reserve k /\ e <> RetFull k /\ e <> RetPushClosed k) /\
     count is_reserve (ring (evs ++ zs)) = count is_reserve (ring zs) /\ count ChannelSpec.is_release (ring (evs ++ zs)) = count ChannelSpec.is_release (ring zs) /\
     (closed_in (ring zs) = true -> closed_in (ring (evs ++ zs)) = true)).
  Proof.
    intros Hr HN' Hc Ha. pose proof (nice_tail _ _ _ _ _ Hr Hc HN') as HN. pose proof (known_run _ _ Hr HN) as K. pose proof (k_counts _ _ K) as Hle.
    destruct (zcase_y _ _ _ _ Hc Ha) as [[[_ E]|(b & Hs & Hb)] _].
    { right. rewrite y_events_app, E. repeat split; try discriminate; auto. }
    pose proof (y_ring_part _ _ _ _ _ _ _ _ _ Hs) as [[_ E]|(x & r & r1 & e & H1 & H2 & H3 & H4 & E)]; rewrite y_events_app, ring_app, E.
    { right. repeat split; try discriminate; auto. }
    destruct e as [e|]; [|right; repeat split; try discriminate; auto]. cbn [ohist app].
    pose proof (WeakChannelFacts.gr_run _ _ _ _ _ H2 _ (k_ring _ _ K)) as Hrr.
    assert (Hring : ring (evs ++ zs) = e :: ring zs) by (rewrite y_events_app, ring_app, E; reflexivity).
    destruct e; try (right; repeat split; try (intros; congruence); cbn; auto; fail).
    - left. apply D_room. rewrite Hring. cbn. lia.
    - (* Release *) left. apply D_note. destruct (release_source _ _ _ _ _ _ _ _ H3) as [-> Hh]. rewrite (gr_pcs _ _ _ _ _ H2) in Hh.
      destruct b; cbn [yacts] in H1; try contradiction; try discriminate; [|eauto]. exfalso. injection H1 as ->.
      pose proof (holds_run _ _ _ _ _ (k_ring _ _ K) (k_noub _ _ K) (tx_agent j)) as Hcnt. rewrite Hh in Hcnt. cbn [b2n] in Hcnt.
      assert (Hin : exists v0, In (Take (tx_agent j) v0) (ring zs)).
      { assert (Hpos : 0 < count (took (tx_agent j)) (ring zs)) by lia. clear - Hpos. induction (ring zs) as [|x l IH]; cbn [count] in Hpos; [lia|].
        destruct (took (tx_agent j) x) eqn:Ex; [|destruct IH as [v0 IH]; [exact Hpos|exists v0; now right]].
        destruct x; try discriminate. apply Nat.eqb_eq in Ex. rewrite <- Ex. eexists. now left. }
      destruct Hin as [v0 Hin]. destruct (takers_rx _ _ _ _ _ _ _ _ _ Ho (proj1 (zproj _ _ _ _ _ _ _ Hr)) Hin) as [n Hn]. exact (tx_rx _ _ Hn).
    - left. apply D_room. rewrite Hring. cbn. pose proof (weak_full W cap pol (co_ring o) Hwf (so_ring _ Ho) _ _ _ _ _ Hrr (proj1 HN) H3) as Hf. unfold occupancy in Hf.
      pose proof (CoreArith.cap_pos _ _ Hwf). lia.
    - left. apply D_closed. rewrite Hring. pose proof (weak_push_closed W cap pol (co_ring o) Hwf (so_ring _ Ho) _ _ _ _ _ Hrr (proj1 HN) H3) as Hf. exact Hf.
    - right. repeat split; try (intros; congruence). intros Hcl. unfold History.closed_in in *. cbn. rewrite Hcl. apply orb_true_r.
  Qed.

  Lemma dinv_step zs s a s' evs : zrun zs s -> zrun (evs ++ zs) s' -> nice (evs ++ zs) s' -> DInv zs s -> zcase s a s' evs -> DInv (evs ++ zs) s'.
  Proof.
    intros Hr Hr' HN' HD Hc. pose proof (nice_tail _ _ _ _ _ Hr Hc HN') as HN. pose proof (known_run _ _ Hr HN) as K. pose proof (known_run _ _ Hr' HN') as K'.
    pose proof (k_link _ _ K) as HK. pose proof (k_inv _ _ K) as HI.
    destruct (q_act s a) as [b|] eqn:Ea.
    2:{ destruct (dinv_ring _ _ _ _ _ Hr HN' Hc Ea) as [H|(Hno & Hres & Hrel & Hcl)]; [exact H|].
        destruct (zcase_y _ _ _ _ Hc Ea) as (_ & Hx1 & Hx2). pose proof (zcase_q _ _ _ _ _ _ _ _ _ Hc) as Hq. rewrite Ea in Hq. destruct Hq as [Hq Eq].
        destruct HD as [H|H|H|H|H1 H2|H|i H].
        - apply D_new. congruence.
        - apply D_closed. auto.
        - apply D_room. congruence.
        - apply D_note. auto.
        - apply D_notify; [auto|now rewrite Hq].
        - apply D_stored. now rewrite q_events_app, Eq.
        - assert (Hub : forall k, ~ In (UB k) (ring evs)).
          { intros k Hk. apply (k_noub _ _ K' k). rewrite y_events_app, ring_app. apply in_or_app. now left. }
          destruct (retry_y _ _ _ _ _ _ Hc Ea HK Hub H) as [Hx|(e & k & E & Hx)]; [now apply (D_retry _ _ i)|].
          exfalso. destruct (Hno k e E) as (N1 & N2 & N3). destruct Hx as [Hx|[Hx|Hx]]; contradiction. }
    (* the queue *)
    destruct (zcase_moves _ _ _ _ _ _ _ _ _ _ Hr Hc (proj1 (proj2 HN'))) as [_ Hm]. rewrite Ea in Hm. destruct Hm as (e & Hm & Ee & Hub).
    assert (Hfl : forall k, e <> Some (EAssert k)).
    { intros k ->. apply (k_fail _ _ K' k). rewrite q_events_app, Ee. now left. }
    pose proof (zcase_q _ _ _ _ _ _ _ _ _ Hc) as Hq. rewrite Ea in Hq. destruct Hq as (_ & _ & _ & Ey & Ey').
    assert (Ering : ring (evs ++ zs) = ring zs) by (rewrite y_events_app, Ey'; reflexivity).
    assert (Eqs : q_events (evs ++ zs) = app_ev e (q_events zs)) by (rewrite q_events_app, Ee; apply olist_app).
    assert (Hnc : forall k, ~ In (ZCancelled k) evs) by (intros k Hk; apply (proj2 (proj2 HN') k), in_or_app; now left).
    assert (Hnz : forall i x, z_op s i = x -> x <> ONone -> i <> 0) by (intros i x H1 H2 ->; destruct (K_0 _ _ HK) as (_ & _ & E0); congruence).
    assert (Hby : z_by s' = z_by s).
    { clear - Hc Ea. destruct Hc; cbn [q_act] in Ea; try discriminate; try reflexivity; [apply (after_wait_parts (on_q s q') i q e)|destruct e as [[]|]; reflexivity..]. }
    (* where the receiver is *)
    assert (Hrx : (z_rx s' = z_rx s /\ mover b <> 0) \/
      (z_rx s = XNote /\ z_rx s' = XNotify /\ q_pc (sysq s') 0 = TLoad) \/ z_rx s = XClosing \/
      (z_rx s = XNotify /\ (exists k, b = AStep 0 k) /\ (e = None -> z_rx s' = XNotify) /\ z_op s' = z_op s) \/ z_rx s = XClose).
    { clear - Hc Ea Hm Ee Hnz. destruct Hc; cbn [q_act] in Ea; try discriminate.
      - injection Ea as <-. left. split; [reflexivity|]. cbn. eapply Hnz; eauto. discriminate.
      - rewrite H in Ea. injection Ea as <-. left. split; [reflexivity|]. cbn. eapply Hnz; eauto. discriminate.
      - left. split; [reflexivity|]. destruct H as [H|H]; rewrite H in Ea; injection Ea as <-; cbn; eapply Hnz; eauto; discriminate.
      - injection Ea as <-. left. split; [apply (after_wait_parts (on_q s q') i q e0)|]. cbn. eapply Hnz; eauto. discriminate.
      - injection Ea as <-. left. split; [destruct e0 as [[]|]; reflexivity|]. cbn. eapply Hnz; eauto. discriminate.
      - injection Ea as <-. left. split; [reflexivity|]. cbn. eapply Hnz; eauto. discriminate.
      - injection Ea as <-. left. split; [reflexivity|]. cbn. eapply Hnz; eauto. discriminate.
      - injection Ea as <-. left. split; [reflexivity|]. cbn. eapply Hnz; eauto. discriminate.
      - injection Ea as <-. right; left. split; [exact H|]. split; [reflexivity|]. cbn [moves] in Hm. apply (q_notify _ _ _ _ _ Hm).
      - auto.
      - injection Ea as <-. rewrite q_events_zqs in Ee. apply olist_inj in Ee. subst e0. right; right; right; left. split; [exact H|]. split; [eauto|]. split; [intros ->; exact H|destruct e as [[]|]; reflexivity].
      - auto 6. }
    destruct HD as [H|H|H|H|H1 H2|H|i H].
    - apply D_new. congruence.
    - apply D_closed. congruence.
    - apply D_room. congruence.
    - destruct Hrx as [(Hx & _)|[(_ & Hx & Hp)|[Hx|[(Hx & _)|Hx]]]]; try congruence; [apply D_note; congruence|]. apply D_notify; [exact Hx|now rewrite Hp].
    - (* the notification takes effect *)
      destruct Hrx as [(Hx & Hmv)|[(Hx & _)|[Hx|[(_ & (k & ->) & Hx & Hop)|Hx]]]]; try congruence.
      { apply D_notify; [congruence|]. now rewrite (proj1 (moves_others _ _ _ _ _ _ Hm 0 ltac:(congruence))). }
      cbn [moves] in Hm. destruct Hm as [[spur Hm]|(-> & p' & Hst & Es)].
      + destruct (ChannelSend.notify_own debug _ _ 0 spur _ _ HI (k_closed _ _ K) (k_notify _ _ K) Hm (Hub 0) H2) as [[-> Hb]|[->|(n & r & Hw & ->)]].
        * apply D_notify; [auto|exact Hb].
        * apply D_stored. rewrite Eqs. reflexivity.
        * apply (D_retry _ _ n). destruct (waiting_where _ _ n Hr HN ltac:(rewrite Hw; now left)) as [H0 Hn].
          destruct (qstep_states _ _ _ _ _ _ _ HI Hm (Hub 0)) as [(n' & st & q & E1 & _ & E2 & _ & _ & Hst)|[Hbad _]]; [|destruct (Hbad n Q_WAKING eq_refl)].
          injection E1 as <- <-. specialize (Hst n). rewrite Nat.eqb_refl in Hst.
          assert (Hpc : q_pc (sysq s') n = q_pc (sysq s) n) by (apply (qstep_agent _ _ _ _ _ _ Hm); exact H0).
          unfold retry. rewrite Hop, Hpc, Hst. destruct (z_op s n); try contradiction; auto.
          -- destruct q0; try contradiction; reflexivity.
          -- destruct (q_pc (sysq s) n) as [| | | | | | | | |[]|[]| | | | | | | | | | | | | | | | | | | | | | | | |]; cbn in Hn |- *; try contradiction; auto.
      + apply D_notify; [auto|]. rewrite Es. cbn [with_pc q_pc]. rewrite pset_same. stales Hst; rewrite E in H2; try discriminate H2; reflexivity.
    - (* a stored notification is consumed by a send that tries again *)
      assert (Hd : (exists j, e = Some (EConsumed j)) \/ stored (app_ev e (q_events zs)) = true) by (destruct e as [[]|]; cbn; eauto).
      destruct Hd as [[j ->]|Hd]; [|apply D_stored; congruence].
      apply (D_retry _ _ j).
      assert (Hst : exists spur k, b = AStep j k /\ qstep_sys debug (sysq s) (QStep j spur) = Some (sysq s', Some (EConsumed j))).
      { destruct b as [b sync|j' k]; cbn [moves] in Hm.
        - exfalso. destruct (ChannelEvents.q_event _ _ _ _ _ Hm) as ([spur ->] & _). clear - Hc Ea. destruct Hc; cbn [q_act] in Ea; try discriminate. 1: rewrite H in Ea; discriminate. destruct H as [H|H]; rewrite H in Ea; discriminate.
        - destruct Hm as [[spur Hm]|(E & _)]; [|discriminate]. pose proof (ChannelEvents.q_event debug (sysq s) (QStep j' spur) _ _ Hm) as ([spur' E] & _). injection E as -> ->. eauto. }
      destruct Hst as (spur & k & -> & Hst). destruct (ChannelEvents.q_event _ _ _ _ _ Hst) as (_ & Hcl & Hp).
      assert (Hkd : kind (q_pc (sysq s) j) = KCall) by (destruct (q_pc (sysq s) j); try discriminate Hcl; reflexivity).
      assert (H0 : j <> 0).
      { intros ->. destruct (K_0 _ _ HK) as (Hx & _). destruct (z_rx s); cbn in Hx; try rewrite Hx in Hkd; discriminate. }
      pose proof (K_q _ _ HK j H0) as Hx.
      assert (Hw : exists q, z_op s j = OWait q).
      { destruct (z_op s j); cbn in Hx; destruct Hx as [Hx _]; try (rewrite Hx in Hkd; discriminate). eauto. }
      destruct Hw as [q Hw].
      assert (Hw' : z_op s' j = OWait q).
      { clear - Hc Ea Ee Hw H0. destruct Hc; cbn [q_act] in Ea; try discriminate; try (rewrite H in Ea; discriminate); try (destruct H as [H|H]; rewrite H in Ea; discriminate).
        - injection Ea as -> ->. rewrite q_events_zqs in Ee. apply olist_inj in Ee. subst e. exact Hw.
        - injection Ea as -> ->. congruence.
        - injection Ea as <- _. congruence.
        - injection Ea as <- _. congruence. }
      unfold retry. rewrite Hw'. destruct Hp as [->| ->]; exact I.
    - apply (D_retry _ _ i). exact (retry_q _ _ _ _ _ _ _ _ Hc Ea Hm Ee HK HI Hub Hfl Hnc Ey Hby H).
  Qed.
  Theorem dinv_run zs s : zrun zs s -> nice zs s -> DInv zs s.
  Proof.
    intros Hr. induction Hr as [|zs s a s' evs Hr IH Hs]; intros HN; [now apply D_new|].
    pose proof (zstep_cases _ _ _ _ _ _ _ _ _ Hs) as Hc. apply (dinv_step _ _ a _ _ Hr (zrun_step _ _ _ _ _ _ _ _ _ _ Hr Hs) HN); [|exact Hc].
    apply IH, (nice_tail _ _ _ _ _ Hr Hc HN).
  Qed.
End Send.
