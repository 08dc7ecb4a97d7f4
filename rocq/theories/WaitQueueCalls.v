(** What one notify call does; which waker a waiter is woken with; what close
    achieves; the queue is never stuck. *)
From Coq Require Import List Bool Arith NArith Lia.
From Verif Require Import WaitCellModel WaitList WaitListSpec WaitListFacts WaitQueueModel WaitQueueSpec WaitQueueFacts WaitQueueSafety WaitQueueWake WaitQueueStored.
Import ListNotations.

(** ** One notify call. *)
Definition took (k n : nat) (es : list qevent) : Prop := In (ESwap k n Q_WAKING) (this_notify k es).
Definition NotInv1 (es : list qevent) (p : qpc) (k : nat) : Prop :=
  match p with
  | TLinks n | TWake n _ | TEmpty (Some (n, _)) | TUnlock (Some (n, _)) => took k n es
  | TEmpty None | TUnlock None => False
  | TRet true => exists n w, took k n es /\ In (EWoke k n w) (this_notify k es)
  | TRet false => In (EStored k) (this_notify k es)
  | _ => True
  end.
Definition NotInv (es : list qevent) (s : qsys) : Prop := forall k, NotInv1 es (q_pc s k) k.

Lemma this_notify_in x k e es : e <> Some (ECallNotify k) -> In x (this_notify k es) -> In x (this_notify k (app_ev e es)).
Proof.
  intros He H. destruct e as [e|]; [|exact H]. cbn [app_ev].
  assert (K : this_notify k (e :: es) = e :: this_notify k es).
  { destruct e; try reflexivity. simpl. destruct (Nat.eqb_spec i k) as [->|]; [congruence|reflexivity]. }
  rewrite K. now right.
Qed.

Lemma notinv_mono e es p k : e <> Some (ECallNotify k) -> NotInv1 es p k -> NotInv1 (app_ev e es) p k.
Proof.
  intros He. unfold NotInv1, took.
  destruct p; auto; try (apply this_notify_in; exact He).
  - destruct o as [[? ?]|]; auto. apply this_notify_in; exact He.
  - destruct o as [[? ?]|]; auto. apply this_notify_in; exact He.
  - destruct b; [|apply this_notify_in; exact He].
    intros (n & w & H1 & H2). exists n, w. split; apply this_notify_in; assumption.
Qed.

Lemma notinv_step r debug es s i spur s' e : QInv es s -> CInv es s -> NInv r es s -> NotInv es s ->
  qstep debug s i spur = Some (s', e) -> e <> Some (EUb i) -> e <> Some (EAssert i) -> NotInv (app_ev e es) s'.
Proof.
  intros HI HC HN HT Hs Hub Has k. destruct (qstep_agent _ _ _ _ _ _ Hs) as (Ha & Hp & _).
  assert (Hne : forall j, e <> Some (ECallNotify j)) by (intros j ->; exact Ha).
  destruct (Nat.eq_dec k i) as [->|Hki]; [|rewrite (Hp k Hki); apply notinv_mono; [apply Hne|apply HT]].
  pose proof (HT i) as Hi. pose proof (fun v (E : q_pc s i = TSlow v) => slow_takes r debug es s i v spur s' e HI HC HN E Hs Hub) as Hslow.
  pose proof (fun n h' l' ow (Hh : half (q_pc s i) = Some n) => unlink_some es s i n h' l' ow HI Hh) as Hun.
  clear Ha Hp HI HC HN HT.
  own Hs E s i; cbn [NotInv1 app_ev] in *; try exact I; try congruence.
  all: try (exfalso; destruct (Hslow _ eq_refl) as (m & q & _ & K & _); discriminate).
  all: try (unfold took; simpl; now left).
  - (* TLinks *)
    destruct (Hun _ _ _ _ eq_refl L) as [_ Hw]. destruct o as [wk|]; [|congruence]. cbn [option_map]. unfold took in *. simpl. right. exact Hi.
  - (* TUnlock *) destruct Hi.
  - (* TWake *) exists n, w. unfold took in *. simpl. auto.
Qed.

Lemma notinv_lrun (G : list qevent -> Prop) (HG : forall e es, G (app_ev e es) -> G es) r debug es s :
  lrun G debug es s -> G es /\ solo_ok r es -> NotInv es s.
Proof.
  apply (@qrun_ind2 G debug NotInv (fun es => G es /\ solo_ok r es));
    [intros e es0 [H1 H2]; split; [exact (HG _ _ H1)|exact (solo_ok_tail _ _ _ H2)]|intros es0 H; exact (proj1 (proj1 (proj2 H)))|intros k; exact I|..]; clear es s.
  - intros es s i spur s' e Hr [Hg Hok] HI HT Hs. pose proof (solo_ok_tail _ _ _ Hok) as Hok0.
    destruct (ninv_lrun r debug G HG es s Hr (HG _ _ Hg) Hok0) as [HN _]. pose proof (cinv_run debug es s Hr (proj1 Hok0)) as HC.
    pose proof (binv_run debug es s Hr (proj1 (proj1 Hok0))) as HB.
    apply (notinv_step r debug es s i spur); auto.
    + intros ->. apply (proj1 (proj1 Hok) i). now left.
    + apply (ninv_step r debug es s i spur s' e HI HB HC HN Hok Hs).
  - intros es s a s' e Hr Hok HI HT Ha Hs. destruct (qcall_agent _ _ _ _ _ Ha Hs) as (i & p' & ph' & E & Hp & _ & _ & _ & _ & _ & Hc).
    intros k. rewrite (Hp k). destruct (Nat.eq_dec k i) as [->|Hki].
    + rewrite pset_same. clear - Hc. repeat match goal with H : _ \/ _ |- _ => destruct H | H : _ /\ _ |- _ => destruct H | H : exists _, _ |- _ => destruct H end; subst; exact I.
    + rewrite pset_other by exact Hki. apply notinv_mono; [|apply HT].
      clear - Hc Hki. repeat match goal with H : _ \/ _ |- _ => destruct H | H : _ /\ _ |- _ => destruct H | H : exists _, _ |- _ => destruct H end; subst; congruence.
  - intros es s i p' Hr Hok HI HT Hs k. unfold with_pc. cbn [q_pc]. destruct (Nat.eq_dec k i) as [->|Hki]; [rewrite pset_same|rewrite pset_other by exact Hki; apply HT].
    stales Hs; try exact I; destruct H' as [->| ->]; exact I.
Qed.

(** The step that emits an event of agent [i]. *)
Lemma emitted {G} debug es s es2 x es1 : lrun G debug es s -> no_ub es -> es = es2 ++ x :: es1 ->
  match x with ENew _ | EStart _ _ | ECont _ _ | ECallNotify _ | ECallClose _ | EFreed _ | EDrop _ | ETimeout _ => False | _ => True end ->
  exists s1 i spur s2, lrun G debug es1 s1 /\ no_ub es1 /\ QInv es1 s1 /\ qstep debug s1 i spur = Some (s2, Some x).
Proof.
  intros Hr Hu He Hx. destruct (qrun_split _ _ _ Hr _ _ _ He) as (s1 & a & s2 & Hr1 & Hs & _).
  assert (Hu1 : no_ub es1) by (subst es; apply no_ub_app in Hu; intros j Hj; apply (Hu j); now right).
  destruct a as [j|j w|j w|j|j|j|j|j|j spur]; cbn [qstep_sys] in Hs;
    try (destruct (idle s1 j); try discriminate; try destruct (q_phase s1 j); try discriminate; injection Hs as <- <-; destruct Hx).
  exists s1, j, spur, s2. split; [exact Hr1|]. split; [exact Hu1|]. split; [exact (proj1 (qrun_inv _ _ _ Hr1 Hu1))|exact Hs].
Qed.

Lemma solo_ok_app r es2 es1 : solo_ok r (es2 ++ es1) -> solo_ok r es1.
Proof. induction es2 as [|e es2 IH]; [auto|]. intros H. apply IH. exact (solo_ok_tail r (Some e) _ H). Qed.
Lemma close_ok_app es2 es1 : close_ok (es2 ++ es1) -> close_ok es1.
Proof. induction es2 as [|e es2 IH]; [auto|]. intros H. apply IH. exact (close_ok_tail (Some e) _ H). Qed.

Lemma notify_result_l (G : list qevent -> Prop) (HG : forall e es, G (app_ev e es) -> G es) r debug es s es2 k b es1 :
  lrun G debug es s -> G es -> solo_ok r es -> es = es2 ++ ERetNotify k b :: es1 ->
  if b then exists n w, In (ESwap k n Q_WAKING) (this_notify k es1) /\ In (EWoke k n w) (this_notify k es1)
  else In (EStored k) (this_notify k es1).
Proof.
  intros Hr Hg Hok He. destruct (emitted _ _ _ _ _ _ Hr (proj1 (proj1 Hok)) He I) as (s1 & i & spur & s2 & Hr1 & _ & _ & Hs).
  destruct (qstep_agent _ _ _ _ _ _ Hs) as (Ha & _). cbn match in Ha. subst i es.
  assert (Hg1 : G es1) by (clear - HG Hg; induction es2 as [|x es2 IH]; [exact (HG (Some _) _ Hg)|apply IH; exact (HG (Some x) _ Hg)]).
  pose proof (solo_ok_tail r (Some (ERetNotify k b)) es1 (solo_ok_app _ _ _ Hok)) as Hok1.
  pose proof (notinv_lrun G HG r debug es1 s1 Hr1 (conj Hg1 Hok1) k) as Hk.
  assert (E : q_pc s1 k = TRet b).
  { remember (Some (ERetNotify k b)) as e eqn:He. clear - Hs He. qcases Hs E s1 k; congruence. }
  rewrite E in Hk. destruct b; exact Hk.
Qed.

Lemma notify_result r debug es s es2 k b es1 : qrun debug es s -> solo_ok r es -> es = es2 ++ ERetNotify k b :: es1 ->
  if b then exists n w, In (ESwap k n Q_WAKING) (this_notify k es1) /\ In (EWoke k n w) (this_notify k es1)
  else In (EStored k) (this_notify k es1).
Proof. intros Hr. exact (notify_result_l any (fun _ _ _ => I) r debug es s es2 k b es1 Hr I). Qed.

(** With one notifier, while the queue is open: a stored notification means nobody waits. *)
Lemma stored_nobody_l (G : list qevent -> Prop) (HG : forall e es, G (app_ev e es) -> G es) r debug es s :
  lrun G debug es s -> G es -> solo_ok r es -> q_closed es = false -> stored es = true -> waiting es = [].
Proof.
  intros Hr Hg Hok Hc Hst. destruct (ninv_lrun r debug G HG es s Hr Hg Hok) as [HN _]. apply (N_stored _ _ _ HN Hc) in Hst.
  destruct (waiting es) as [|n q] eqn:Ew; [reflexivity|]. assert (K : q_state s = Q_WAITING) by (apply (N_wait _ _ _ HN Hc); congruence).
  rewrite Hst in K. discriminate.
Qed.

Lemma stored_nobody r debug es s : qrun debug es s -> solo_ok r es -> q_closed es = false -> stored es = true -> waiting es = [].
Proof. intros Hr. exact (stored_nobody_l any (fun _ _ _ => I) r debug es s Hr I). Qed.

(** ** Wakers. *)
Lemma gone_run {G} debug es s : lrun G debug es s -> no_ub es -> GoneInv es s.
Proof.
  apply (@qrun_ind2 G debug GoneInv no_ub); [exact no_ub_tail|auto|..].
  - intros n. unfold released. simpl. split; [tauto|discriminate].
  - intros es0 s0 i spur s' e Hr Hu HI HG Hs. exact (gone_step debug es0 s0 i spur s' e HI HG Hs).
  - intros es0 s0 a s' e Hr Hu HI HG Ha Hs. destruct (qcall_agent _ _ _ _ _ Ha Hs) as (i & p' & ph' & E & Hp & Hph & _ & _ & _ & _ & Hc). intros m.
    rewrite (Hph m). pose proof (HG m) as Hm.
    assert (Hcase : (exists j, (e = Some (EFreed j) \/ e = Some (ETimeout j)) /\ j = i /\ ph' = PGone) \/
      ((forall j, e <> Some (EFreed j)) /\ (forall j, e <> Some (ETimeout j)) /\ (ph' = PGone <-> q_phase s0 i = PGone))).
    { clear - Hc. repeat match goal with H : _ \/ _ |- _ => destruct H | H : _ /\ _ |- _ => destruct H | H : exists _, _ |- _ => destruct H end; subst;
      try (left; exists i; auto; fail); right; (split; [discriminate|]); (split; [discriminate|]); try tauto;
      match goal with H : q_phase _ _ = _ |- _ => rewrite H end; split; discriminate. }
    destruct Hcase as [(j & [->| ->] & -> & ->)|(H1 & H2 & H3)].
    + cbn [app_ev]. rewrite released_freed. apply (gone_freed es0 s0 i (pset (q_phase s0) i PGone)); auto; [intros; now apply pset_other|apply pset_same].
    + cbn [app_ev]. rewrite released_timeout. apply (gone_freed es0 s0 i (pset (q_phase s0) i PGone)); auto; [intros; now apply pset_other|apply pset_same].
    + rewrite released_calm by assumption. destruct (Nat.eq_dec m i) as [->|Hmi]; [rewrite pset_same; tauto|rewrite pset_other by exact Hmi; exact Hm].
  - intros es0 s0 i p' _ _ _ HG _. exact HG.
Qed.

Lemma waiting_latest {G} debug es s n : lrun G debug es s -> no_ub es -> In n (waiting es) -> in_call n es = false -> ~ released n es ->
  given n es = passed n es.
Proof.
  intros Hr Hu Hin Hc Hrel. pose proof (proj1 (qrun_inv _ _ _ Hr Hu)) as HI. destruct (pinv_run _ _ _ Hr Hu n) as (_ & P2 & P3).
  apply P2. rewrite Hc in P3. symmetry in P3. pose proof (I_node _ _ HI n) as Hn.
  rewrite (gone_run _ _ _ Hr Hu n) in Hrel. clear - Hn Hin P3 Hrel.
  destruct (q_pc s n); try discriminate; cbn [node_ok] in Hn; cbn [agrees calling];
   destruct (q_phase s n); cbn [rest] in Hn; try tauto; destruct r; try discriminate; tauto.
Qed.

Definition TakenInv (es : list qevent) (s : qsys) : Prop :=
  forall k n, half (q_pc s k) = Some n -> exists esb esa st, es = esb ++ ESwap k n st :: esa /\ given n es = given n esa.

Lemma half_holds p n : half p = Some n -> holds p = true.
Proof. destruct p; simpl; congruence. Qed.

Lemma step_taken debug s i spur s' e n : qstep debug s i spur = Some (s', e) -> half (q_pc s' i) = Some n -> exists st, e = Some (ESwap i n st).
Proof. intros Hs. own Hs E s i; cbn [half]; intros H; try discriminate; injection H as <-; eexists; reflexivity. Qed.
Lemma step_gives debug s i spur s' e : qstep debug s i spur = Some (s', e) ->
  match e with Some (EEnq _ _ | EUpd _ _) => holds (q_pc s i) = true | _ => True end.
Proof. intros Hs. own Hs E s i; reflexivity. Qed.

Lemma taken_run {G} debug es s : lrun G debug es s -> no_ub es -> TakenInv es s.
Proof.
  apply (@qrun_ind2 G debug TakenInv no_ub); [exact no_ub_tail|auto|..].
  - intros k n H. discriminate.
  - intros es0 s0 i spur s' e Hr Hu HI HT Hs k n Hk. destruct (qstep_agent _ _ _ _ _ _ Hs) as (Ha & Hp & _).
    destruct (Nat.eq_dec k i) as [->|Hki].
    + destruct (step_taken _ _ _ _ _ _ _ Hs Hk) as [st ->]. exists [], es0, st. split; reflexivity.
    + rewrite (Hp k Hki) in Hk. destruct (HT k n Hk) as (esb & esa & st & -> & Hg). pose proof (step_gives _ _ _ _ _ _ Hs) as Hgv.
      assert (Hnh : holds (q_pc s0 i) = true -> False) by (intros K; apply Hki; exact (mutex _ _ _ _ HI (half_holds _ _ Hk) K)).
      exists (app_ev e esb), esa, st. split; [destruct e; reflexivity|]. rewrite <- Hg.
      destruct e as [[]|]; try contradiction; try reflexivity; destruct (Hnh Hgv).
  - intros es0 s0 a s' e Hr Hu HI HT Ha Hs k n Hk. destruct (qcall_agent _ _ _ _ _ Ha Hs) as (i & p' & ph' & E & Hp & _ & _ & _ & _ & _ & Hc).
    rewrite (Hp k) in Hk. destruct (Nat.eq_dec k i) as [->|Hki].
    + rewrite pset_same in Hk. exfalso. clear - Hc Hk.
      repeat match goal with H : _ \/ _ |- _ => destruct H | H : _ /\ _ |- _ => destruct H | H : exists _, _ |- _ => destruct H end; subst; discriminate.
    + rewrite pset_other in Hk by exact Hki. destruct (HT k n Hk) as (esb & esa & st & -> & Hg). exists (app_ev e esb), esa, st.
      split; [destruct e; reflexivity|]. rewrite <- Hg. clear - Hc.
      repeat match goal with H : _ \/ _ |- _ => destruct H | H : _ /\ _ |- _ => destruct H | H : exists _, _ |- _ => destruct H end; subst; reflexivity.
  - intros es0 s0 i p' _ _ _ HT Hs k n Hk. apply HT. destruct (stale_half _ _ _ _ _ Hs) as [H1 _]. revert Hk. unfold with_pc. cbn [q_pc].
    destruct (Nat.eq_dec k i) as [->|Hki]; [rewrite pset_same; congruence|now rewrite pset_other by exact Hki].
Qed.

Lemma last_unlinked_in k es x : last_unlinked k es = Some x -> exists esb esa, es = esb ++ EUnlink k (fst x) (snd x) :: esa.
Proof.
  induction es as [|e es IH]; simpl; [discriminate|]. intros H.
  assert (Hrec : last_unlinked k es = Some x -> exists esb esa, e :: es = esb ++ EUnlink k (fst x) (snd x) :: esa).
  { intros K. destruct (IH K) as (esb & esa & ->). exists (e :: esb), esa. reflexivity. }
  destruct e; auto. destruct (Nat.eqb_spec i k) as [->|]; auto. injection H as <-. exists [], es. reflexivity.
Qed.

(** A waiter is woken with the waker that was in it when it was taken. *)
Theorem woke_waker {G} debug es s es2 k n w es1 : lrun G debug es s -> no_ub es -> es = es2 ++ EWoke k n w :: es1 ->
  exists esb esm esa st, es1 = esb ++ EUnlink k n (Some w) :: esm ++ ESwap k n st :: esa /\ given n esa = Some w /\ In n (waiting esa).
Proof.
  intros Hr Hu He. destruct (emitted _ _ _ _ _ _ Hr Hu He I) as (s1 & i & spur & s2 & Hr1 & Hu1 & HI1 & Hs).
  assert (Hc : i = k /\ carryw (q_pc s1 i) = Some (n, w)).
  { remember (Some (EWoke k n w)) as e eqn:Hev. clear - Hs Hev. qcases Hs E s1 i; try discriminate; injection Hev as -> -> ->; auto. }
  destruct Hc as [-> Hc]. apply (oinv_run _ _ _ Hr1 Hu1) in Hc. destruct (last_unlinked_in _ _ _ Hc) as (esb & es3 & He3). cbn [fst snd] in He3.
  destruct (emitted _ _ _ _ _ _ Hr1 Hu1 He3 I) as (s3 & j & spur3 & s4 & Hr3 & Hu3 & HI3 & Hs3).
  assert (Hx : j = k /\ half (q_pc s3 j) = Some n /\ exists h' l', dequeue_links (q_heap s3) (q_list s3) n = (h', l', Some w)).
  { remember (Some (EUnlink k n (Some w))) as e eqn:Hev. clear - Hs3 Hev. qcases Hs3 E s3 j; try discriminate; injection Hev as -> -> ->; eauto. }
  destruct Hx as (-> & Hh & h' & l' & Hd). destruct (unlink_some _ _ _ _ _ _ _ HI3 Hh Hd) as [Hg _].
  destruct (taken_run _ _ _ Hr3 Hu3 k n Hh) as (esm & esa & st & -> & Hgg). exists esb, esm, esa, st.
  split; [exact He3|]. split; [congruence|].
  destruct (swap_oldest debug _ s3 esm k n st esa Hr3 Hu3 eq_refl) as [q Hq]. rewrite Hq. now left.
Qed.

(** ** Closing. *)
Lemma waiting_gone n es2 es1 : In n (waiting es1) -> ~ In n (waiting (es2 ++ es1)) -> In (ERemoved n) es2 \/ exists j st, In (ESwap j n st) es2.
Proof.
  induction es2 as [|e es2 IH]; simpl; intros H1 H2; [contradiction|].
  destruct (in_dec Nat.eq_dec n (waiting (es2 ++ es1))) as [Hin|Hin].
  - destruct e; try contradiction.
    + destruct H2. apply in_or_app. now left.
    + destruct (Nat.eq_dec n n0) as [->|Hn]; [right; eauto|]. destruct H2. apply without_in. auto.
    + destruct (Nat.eq_dec n i) as [->|Hn]; [left; auto|]. destruct H2. apply without_in. auto.
  - destruct (IH H1 Hin) as [H|(j & st & H)]; [auto|right; eauto].
Qed.

Lemma paid k n st es2 es1 : In (ESwap k n st) es2 -> owed k n (es2 ++ es1) = false -> exists w, In (EWoke k n w) es2.
Proof.
  induction es2 as [|e es2 IH]; simpl; [tauto|]. intros H1 H2.
  assert (Hrec : In (ESwap k n st) es2 -> owed k n (es2 ++ es1) = false -> exists w, e = EWoke k n w \/ In (EWoke k n w) es2).
  { intros A B. destruct (IH A B) as [w Hw]. eauto. }
  destruct e; try (destruct H1 as [H1|H1]; [discriminate|auto]).
  - destruct (Nat.eqb_spec i k) as [->|Hi]; destruct (Nat.eqb_spec n0 n) as [->|Hn]; cbn [andb] in H2; try discriminate;
    (destruct H1 as [H1|H1]; [injection H1; congruence|auto]).
  - destruct (Nat.eqb_spec i k) as [->|Hi]; destruct (Nat.eqb_spec n0 n) as [->|Hn]; cbn [andb] in H2; eauto.
Qed.

(** After the queue was closed waiters are taken with CLOSED only. *)
Lemma swap_closed {G} debug es s es2 k n st es1 : lrun G debug es s -> close_ok es -> es = es2 ++ ESwap k n st :: es1 -> q_closed es1 = true -> st = Q_CLOSED.
Proof.
  intros Hr Hok He Hc. destruct (emitted _ _ _ _ _ _ Hr (proj1 Hok) He I) as (s1 & i & spur & s2 & Hr1 & Hu1 & HI1 & Hs).
  subst es. pose proof (close_ok_tail (Some (ESwap k n st)) es1 (close_ok_app _ _ Hok)) as Hok1. pose proof (cinv_run _ _ _ Hr1 Hok1) as HC.
  destruct (C_call _ _ HC Hc) as [j Hj]. pose proof (C_quiet _ _ HC j Hj i) as Hi. remember (Some (ESwap k n st)) as e eqn:Hev.
  clear - Hs Hev Hi. revert Hi. own Hs E s1 i; intros; try discriminate; injection Hev as -> -> ->; reflexivity || discriminate.
Qed.

Theorem close_wakes {G} debug es s es3 k es2 es1 n : lrun G debug es s -> close_ok es -> es = es3 ++ ERetClose k :: es2 ++ es1 ->
  q_closed es1 = true -> In n (waiting es1) ->
  In (ERemoved n) es2 \/ exists j w, In (ESwap j n Q_CLOSED) es2 /\ In (EWoke j n w) es2.
Proof.
  intros Hr Hok He Hc Hin. destruct (emitted _ _ _ _ _ _ Hr (proj1 Hok) He I) as (s1 & i & spur & s2 & Hr1 & Hu1 & HI1 & Hs).
  assert (Hok1 : close_ok (es2 ++ es1)) by (subst es; exact (close_ok_tail (Some (ERetClose k)) _ (close_ok_app _ _ Hok))).
  assert (Hpc : i = k /\ q_pc s1 i = KUnlock).
  { remember (Some (ERetClose k)) as e eqn:Hev. clear - Hs Hev. qcases Hs E s1 i; try discriminate; injection Hev as ->; auto. }
  destruct Hpc as [-> Hpc]. pose proof (cinv_run _ _ _ Hr1 Hok1) as HC.
  assert (Hw : waiting (es2 ++ es1) = []) by (apply (C_done _ _ HC); exists k; auto).
  destruct (waiting_gone n es2 es1 Hin) as [H|(j & st & Hj)]; [rewrite Hw; intros []|auto|]. right.
  assert (Hst : st = Q_CLOSED).
  { apply in_split in Hj as (a & b & ->). rewrite <- app_assoc in Hr1, Hok1. simpl in Hr1, Hok1.
    apply (swap_closed debug _ s1 a j n st (b ++ es1) Hr1 Hok1 eq_refl). apply closed_in. apply closed_in in Hc as [x Hx]. exists x. apply in_or_app. auto. }
  subst st. exists j.
  assert (Ho : owed j n (es2 ++ es1) = false).
  { destruct (owed j n (es2 ++ es1)) eqn:Eo; [|reflexivity]. exfalso. apply (oinv_run _ _ _ Hr1 Hu1) in Eo.
    assert (j = k).
    { pose proof (C_quiet _ _ HC) as Q. destruct (C_call _ _ HC) as [x Hx]; [apply closed_in; apply closed_in in Hc as [y Hy]; exists y; apply in_or_app; auto|].
      specialize (Q x Hx j). apply (mutex _ _ _ _ HI1); [destruct (q_pc s1 j); try discriminate; reflexivity|rewrite Hpc; reflexivity]. }
    subst j. rewrite Hpc in Eo. discriminate. }
  destruct (paid _ _ _ _ _ Hj Ho) as [w Hwk]. eauto.
Qed.

Theorem closed_stays_empty {G} debug es s k : lrun G debug es s -> close_ok es -> In (ERetClose k) es -> waiting es = [].
Proof. intros Hr Hok H. apply (C_done _ _ (cinv_run _ _ _ Hr Hok)). exists k. auto. Qed.

Theorem closed_no_enq {G} debug es s es3 n w es2 k es1 : lrun G debug es s -> close_ok es -> es = es3 ++ EEnq n w :: es2 ++ ERetClose k :: es1 -> False.
Proof.
  intros Hr Hok He. destruct (emitted _ _ _ _ _ _ Hr (proj1 Hok) He I) as (s1 & i & spur & s2 & Hr1 & Hu1 & HI1 & Hs).
  assert (Hok1 : close_ok (es2 ++ ERetClose k :: es1)) by (subst es; exact (close_ok_tail (Some (EEnq n w)) _ (close_ok_app _ _ Hok))).
  destruct (C_swept _ _ (cinv_run _ _ _ Hr1 Hok1)) as [_ Hq]; [exists k; right; apply in_or_app; right; now left|].
  specialize (Hq i). remember (Some (EEnq n w)) as e eqn:Hev. clear - Hs Hev Hq. revert Hq. own Hs E s1 i; intros; discriminate.
Qed.

Lemma emitted_sc debug es s : qrun debug es s -> forall es2 n r es1, es = es2 ++ ERet n r :: es1 ->
  exists s1 i spur s2, qrun debug es1 s1 /\ qstep debug s1 i spur = Some (s2, Some (ERet n r)).
Proof.
  induction 1 as [|es s a s' e0 Hr IH Hs]; intros es2 n r es1 He; [destruct es2; discriminate|].
  destruct e0 as [x|]; [|exact (IH _ _ _ _ He)]. destruct es2 as [|y es2]; simpl in He; injection He as Hx He; [|exact (IH _ _ _ _ He)]. subst.
  destruct a as [j|j w|j w|j|j|j|j|j|j spur]; cbn [qstep_sys] in Hs;
    try (destruct (idle s j); try discriminate; try destruct (q_phase s j); discriminate).
  exists s, j, spur, s'. auto.
Qed.

Theorem late_closed debug es s es2 n r es1 : qrun debug es s -> close_ok es -> es = es2 ++ ERet n r :: es1 -> late n es1 = true -> r = Closed.
Proof.
  intros Hr Hok He Hl. destruct (emitted_sc _ _ _ Hr _ _ _ _ He) as (s1 & i & spur & s2 & Hr1 & Hs).
  assert (Hok1 : close_ok es1) by (subst es; exact (close_ok_tail (Some (ERet n r)) _ (close_ok_app _ _ Hok))).
  destruct (late_run _ _ _ Hr1 Hok1 n Hl) as [_ Hpc].
  assert (Hx : i = n /\ q_pc s1 i = SRet r).
  { remember (Some (ERet n r)) as e eqn:Hev. clear - Hs Hev. qcases Hs E s1 i; try discriminate; injection Hev as -> ->; auto. }
  destruct Hx as [-> Hx]. rewrite Hx in Hpc. destruct Hpc as [[w Hpc]|Hpc]; congruence.
Qed.

(** ** Progress. *)
Definition at_lock (p : qpc) : bool := match p with SLock _ | CLock _ | TLock _ | KLock | DLock => true | _ => false end.

Lemma can_step debug s i spur : q_pc s i <> QIdle -> at_lock (q_pc s i) = false \/ q_lock s = None -> exists s' e, qstep debug s i spur = Some (s', e).
Proof.
  intros H1 H2. unfold qstep, failed, undefined. destruct (q_pc s i) eqn:E; try congruence; cbn [at_lock] in H2;
  repeat match goal with
    | |- context [match q_lock _ with Some _ => _ | None => _ end] => destruct H2 as [H2|H2]; [discriminate|rewrite H2]
    | |- context [match (if ?b then _ else _) with _ => _ end] => destruct b
    | |- context [if ?b then _ else _] => destruct b
    | |- context [match l_tail ?b with Some _ => _ | None => _ end] => destruct (l_tail b)
    | |- context [let '(_, _) := ?b in _] => destruct b as [[? ?] ?] || destruct b as [? ?]
    end; eauto.
Qed.

(** Whatever happened, if anybody is inside the queue's code somebody can go on. *)
Theorem never_stuck {G} debug es s i : lrun G debug es s -> no_ub es -> q_pc s i <> QIdle ->
  (exists s' e, qstep debug s i false = Some (s', e)) \/ (exists k, q_lock s = Some k /\ exists s' e, qstep debug s k false = Some (s', e)).
Proof.
  intros Hr Hu Hi. pose proof (proj1 (qrun_inv _ _ _ Hr Hu)) as HI. destruct (q_lock s) as [k|] eqn:El.
  - right. exists k. split; [reflexivity|]. pose proof (proj2 (I_lock _ _ HI k) El) as Hk. apply can_step.
    + intros E. rewrite E in Hk. discriminate.
    + left. destruct (q_pc s k); try discriminate; reflexivity.
  - left. apply can_step; auto.
Qed.
