(** Wakeups of the wait queue: order, wakers, stored notifications, closing. *)
From Coq Require Import List Bool Arith NArith Lia.
From Verif Require Import WaitCellModel WaitList WaitListSpec WaitListFacts WaitQueueModel WaitQueueSpec WaitQueueFacts WaitQueueSafety.
Import ListNotations.

(** Split a step of an agent into its cases. *)
Ltac qcases Hs E s i :=
  unfold qstep, s_dispatch, n_dispatch, failed, undefined in Hs;
  destruct (q_pc s i) eqn:E; [discriminate|..];
  repeat match type of Hs with
    | context [if ?b then _ else _] => let C := fresh "C" in destruct b eqn:C
    | context [match q_lock ?b with Some _ => _ | None => _ end] => let C := fresh "C" in destruct (q_lock b) eqn:C
    | context [match l_tail ?b with Some _ => _ | None => _ end] => let C := fresh "C" in destruct (l_tail b) eqn:C
    | context [let '(_, _) := ?b in _] => let C := fresh "L" in destruct b as [[? ?] ?] eqn:C || destruct b as [? ?] eqn:C
    | context [match ?o with Some _ => _ | None => _ end] => let C := fresh "C" in destruct o as [[? ?]|] eqn:C || destruct o eqn:C
    end; try discriminate;
  injection Hs as <- <-.

(** ** Generic induction: the step of an agent, and the start of a call. *)
Lemma qrun_ind2 {G} debug (P : list qevent -> qsys -> Prop) (H : list qevent -> Prop) :
  (forall e es, H (app_ev e es) -> H es) ->
  (forall es, H es -> no_ub es) ->
  P [] q_init ->
  (forall es s i spur s' e, lrun G debug es s -> H (app_ev e es) -> QInv es s -> P es s -> qstep debug s i spur = Some (s', e) -> P (app_ev e es) s') ->
  (forall es s a s' e, lrun G debug es s -> H (app_ev e es) -> QInv es s -> P es s ->
     (forall i spur, a <> QStep i spur) -> qstep_sys debug s a = Some (s', e) -> P (app_ev e es) s') ->
  (forall es s i p', lrun G debug es s -> H es -> QInv es s -> P es s -> stale G es s i p' -> P es (with_pc s i p')) ->
  forall es s, lrun G debug es s -> H es -> P es s.
Proof.
  intros Hm Hu H0 Hst Hca Hsl es s Hr. induction Hr as [|es s a s' e Hr IH Hs|es s i p' Hr IH Hs]; [auto|..]; intros HH.
  - pose proof (Hm _ _ HH) as HH0. destruct (qrun_inv _ _ _ Hr (Hu _ HH0)) as [HI _].
    destruct a as [i|i w|i w|i|i|i|i|i|i spur]; try (eapply (Hca es s); eauto; discriminate). apply (Hst es s i spur); auto.
  - apply Hsl; auto. exact (proj1 (qrun_inv _ _ _ Hr (Hu _ HH))).
Qed.


Lemma no_ub_tail e es : no_ub (app_ev e es) -> no_ub es.
Proof. intros H i Hi. apply (H i). destruct e; [right|]; exact Hi. Qed.

(** The calls. *)
Ltac qcalls Hs s i E Ep :=
  cbn [qstep_sys] in Hs;
  destruct (idle s i) eqn:E; [apply idle_pc in E|discriminate];
  try (destruct (q_phase s i) eqn:Ep; try discriminate);
  injection Hs as <- <-.

(** ** Order. *)
Theorem swap_oldest {G} debug es s es2 k n st es1 :
  lrun G debug es s -> no_ub es -> es = es2 ++ ESwap k n st :: es1 -> exists q, waiting es1 = n :: q.
Proof.
  intros Hr Hu He. destruct (qrun_split _ _ _ Hr _ _ _ He) as (s1 & a & s2 & Hr1 & Hs & Hr2).
  assert (Hu1 : no_ub es1) by (subst es; apply no_ub_app in Hu; intros i Hi; apply (Hu i); now right).
  destruct (qrun_inv _ _ _ Hr1 Hu1) as [HI _].
  destruct a as [i|i w|i w|i|i|i|i|i|i spur]; cbn [qstep_sys] in Hs;
    try (destruct (idle s1 i); try discriminate; destruct (q_phase s1 i); congruence).
  unfold qstep, failed, undefined, s_dispatch, n_dispatch in Hs.
  assert (Hlk : holds (q_pc s1 i) = true -> q_lock s1 = Some i) by apply (I_lock _ _ HI).
  destruct (q_pc s1 i) eqn:E; [discriminate|..];
  repeat match type of Hs with
    | context [if ?b then _ else _] => destruct b eqn:?
    | context [match q_lock ?b with Some _ => _ | None => _ end] => destruct (q_lock b) eqn:?
    | context [match l_tail ?b with Some _ => _ | None => _ end] => destruct (l_tail b) eqn:?
    | context [let '(_, _) := ?b in _] => destruct b as [[? ?] ?] eqn:? || destruct b as [? ?] eqn:?
    end; try congruence.
  all: match goal with H : l_tail _ = Some ?m |- _ => assert (m = n) by congruence; subst m;
    refine (proj2 (qinv_take es1 s1 i n Q_WAKING (TLinks n) HI _ _ _ _ _ _ H)) end; rewrite ?E; auto.
Qed.

(** ** Every waiter taken is woken with the waker found in it. *)
Definition carries (p : qpc) : option nat :=
  match p with
  | TLinks n | KLinks n | TWake n _ | KWake n _ | TEmpty (Some (n, _)) | TUnlock (Some (n, _)) => Some n
  | _ => None
  end.
Definition carryw (p : qpc) : option (nat * waker) :=
  match p with TWake n w | KWake n w => Some (n, w) | TEmpty o | TUnlock o => o | _ => None end.

Definition OInv (es : list qevent) (s : qsys) : Prop :=
  (forall k n, owed k n es = true <-> carries (q_pc s k) = Some n) /\
  (forall k n w, carryw (q_pc s k) = Some (n, w) -> last_unlinked k es = Some (n, Some w)).

Lemma unlink_some es s k n h' l' ow : QInv es s -> half (q_pc s k) = Some n ->
  dequeue_links (q_heap s) (q_list s) n = (h', l', ow) -> ow = given n es /\ ow <> None.
Proof.
  intros HI Hh Hd.
  assert (Hl : q_lock s = Some k) by (apply (I_lock _ _ HI); destruct (q_pc s k); try discriminate; reflexivity).
  assert (Hin : In n (members es s)) by (unfold members, window; rewrite Hl, Hh; now left).
  destruct (I_given _ _ HI n Hin) as [H1 H2]. unfold dequeue_links in Hd.
  assert (ow = n_waker (q_heap s n)) by (destruct (n_prev (q_heap s n)); congruence). subst ow. rewrite H1. auto.
Qed.

Lemma owed_other e es k n i : (forall m st, e <> Some (ESwap k m st)) -> (forall m w, e <> Some (EWoke k m w)) ->
  i <> k -> owed k n (app_ev e es) = owed k n es.
Proof.
  intros H1 H2 _. destruct e as [[]|]; try reflexivity; cbn [app_ev owed].
  - destruct (Nat.eqb_spec i0 k) as [->|]; [destruct (H1 n0 st); reflexivity|reflexivity].
  - destruct (Nat.eqb_spec i0 k) as [->|]; [destruct (H2 n0 w); reflexivity|reflexivity].
Qed.

Lemma qstep_agent debug s i spur s' e : qstep debug s i spur = Some (s', e) ->
  match e with
  | Some (ERet j _ | EPeek j | EEnq j _ | EUpd j _ | EConsumed j | ERetNotify j _ | EStored j | ESwap j _ _ | EUnlink j _ _
         | EWoke j _ _ | EClosed j | ERetClose j | ERemoved j | EFreed j | EUb j | EAssert j) => j = i
  | Some _ => False
  | None => True
  end /\ (forall j, j <> i -> q_pc s' j = q_pc s j) /\ (forall j, j <> i -> q_phase s' j = q_phase s j).
Proof.
  intros Hs. qcases Hs E s i; simpl; auto.
  all: repeat match goal with |- context [match ?b with _ => _ end] => destruct b end; simpl.
  all: split; [auto|split; intros; auto; try (now apply pset_other)].
Qed.

Lemma oinv_step debug es s i spur s' e : QInv es s -> OInv es s -> qstep debug s i spur = Some (s', e) -> e <> Some (EUb i) ->
  OInv (app_ev e es) s'.
Proof.
  intros HI [O1 O2] Hs Hub. destruct (qstep_agent _ _ _ _ _ _ Hs) as (Ha & Hp & _).
  assert (Hoth : forall k, k <> i -> (forall n, owed k n (app_ev e es) = owed k n es) /\ last_unlinked k (app_ev e es) = last_unlinked k es).
  { intros k Hk. destruct e as [[]|]; try contradiction; subst; cbn [app_ev owed last_unlinked];
    rewrite ?(proj2 (Nat.eqb_neq i k)) by congruence; auto. }
  enough (Hi : (forall n, owed i n (app_ev e es) = true <-> carries (q_pc s' i) = Some n) /\
               (forall n w, carryw (q_pc s' i) = Some (n, w) -> last_unlinked i (app_ev e es) = Some (n, Some w))).
  { split.
    - intros k n. destruct (Nat.eq_dec k i) as [->|Hk]; [apply Hi|]. rewrite (Hp k Hk), (proj1 (Hoth k Hk)). apply O1.
    - intros k n w. destruct (Nat.eq_dec k i) as [->|Hk]; [apply Hi|]. rewrite (Hp k Hk), (proj2 (Hoth k Hk)). apply O2. }
  clear Hoth Hp Ha. pose proof (O1 i) as Q1. pose proof (O2 i) as Q2. clear O1 O2.
  assert (Hlk : holds (q_pc s i) = true -> q_lock s = Some i) by apply (I_lock _ _ HI).
  qcases Hs E s i; cbn [app_ev owed last_unlinked]; unfold with_pc, with_mem, with_phase, with_state, with_lock; cbn [q_pc].
  all: try (destruct Hub; reflexivity).
  all: rewrite ?pset_same, ?Nat.eqb_refl; cbn [carries carryw andb].
  all: try (split; [exact Q1|exact Q2]).
  all: try solve [cbn [carries carryw] in *; split; [intros m; rewrite (Q1 m); try destruct o as [[? ?]|]; tauto|discriminate || (intros; apply Q2; assumption)]].
  all: try (rewrite E; split; [exact Q1|exact Q2]).
  (* taking *)
  all: try solve [split; [|discriminate]; intros m; cbn [carries] in Q1;
    match goal with |- context [Nat.eqb ?a m] => destruct (Nat.eqb_spec a m) as [->|Hne] end; [tauto|];
    rewrite (Q1 m); split; intros Hx; congruence].
  (* waking *)
  all: try solve [split; [|discriminate]; intros m; cbn [carries] in Q1;
    match goal with |- context [Nat.eqb ?a m] => destruct (Nat.eqb_spec a m) as [->|Hne] end; [split; discriminate|];
    rewrite (Q1 m); split; intros Hx; congruence].
  - (* unlinking *)
    destruct (unlink_some es s i n _ _ _ HI ltac:(rewrite E; reflexivity) L) as [_ Ho]. destruct o as [w0|]; [|congruence]. simpl.
    split; [exact Q1|]. intros; congruence.
  - split; [exact Q1|]. intros; congruence.
  - destruct (unlink_some es s i n _ _ _ HI ltac:(rewrite E; reflexivity) L) as [_ Ho]. congruence.
Qed.

Lemma oinv_run {G} debug es s : lrun G debug es s -> no_ub es -> OInv es s.
Proof.
  apply (@qrun_ind2 G debug OInv no_ub); [exact no_ub_tail|auto|..].
  - split; [intros k n; simpl; split; discriminate|discriminate].
  - intros es0 s0 i spur s' e _ Hu HI HO Hs. apply (oinv_step debug es0 s0 i spur); auto. intros ->. apply (Hu i). now left.
  - intros es0 s0 a s' e _ _ _ [O1 O2] Ha Hs.
    assert (K : forall i p', q_pc s0 i = QIdle -> carries p' = None -> carryw p' = None ->
      forall st l ls h ph e, match e with Some (ESwap _ _ _ | EWoke _ _ _ | EUnlink _ _ _) => False | _ => True end ->
      OInv (app_ev e es0) (mkQ st l ls h (pset (q_pc s0) i p') ph)).
    { intros i p' E H1 H2 st l ls h ph e0 He.
      assert (Hx : (forall k n, owed k n (app_ev e0 es0) = owed k n es0) /\ forall k, last_unlinked k (app_ev e0 es0) = last_unlinked k es0)
        by (destruct e0 as [[]|]; try contradiction; auto).
      split; cbn [q_pc].
      - intros k n. rewrite (proj1 Hx), (O1 k n). destruct (Nat.eq_dec k i) as [->|Hk]; [rewrite pset_same, E, H1; simpl; tauto|rewrite pset_other by exact Hk; tauto].
      - intros k n w. rewrite (proj2 Hx). destruct (Nat.eq_dec k i) as [->|Hk]; [rewrite pset_same, H2; discriminate|rewrite pset_other by exact Hk; apply O2]. }
    assert (K' : forall st l ls h ph e, match e with Some (ESwap _ _ _ | EWoke _ _ _ | EUnlink _ _ _) => False | _ => True end ->
      OInv (app_ev e es0) (mkQ st l ls h (q_pc s0) ph)).
    { intros st l ls h ph e0 He. split; cbn [q_pc]; destruct e0 as [[]|]; try contradiction; auto. }
    destruct a as [i|i w|i w|i|i|i|i|i|i spur]; try (destruct (Ha i spur); reflexivity); qcalls Hs s0 i E Ep;
    unfold with_phase, with_mem, with_pc; cbn [q_state q_lock q_list q_heap q_pc q_phase]; try (apply K'; exact I); apply K; auto; exact I.
  - intros es0 s0 i p' _ _ _ [O1 O2] Hs.
    assert (Hc : carries p' = carries (q_pc s0 i) /\ carryw p' = carryw (q_pc s0 i))
      by (stales Hs; rewrite ?E; try (split; reflexivity); destruct H' as [->| ->]; split; reflexivity).
    split; intros k n; unfold with_pc; cbn [q_pc]; (destruct (Nat.eq_dec k i) as [->|Hk]; [rewrite pset_same|rewrite pset_other by exact Hk]).
    + rewrite (proj1 Hc). apply O1.
    + apply O1.
    + rewrite (proj2 Hc). apply O2.
    + apply O2.
Qed.

(** ** Wakers. *)
Definition wcarry (p : qpc) : option waker :=
  match p with
  | SCas w | SLock w | SLoad w | SCasEmpty w | SCasWaking w | SNode w | SSwap w | SEnq w
  | CLoad w | CLock w | CLoad2 w | CUpd w => Some w
  | _ => None
  end.
Definition calling (p : qpc) : bool :=
  match p with SUnlock _ | SRet _ => true | _ => match wcarry p with Some _ => true | None => false end end.
Definition agrees (p : qpc) (ph : phase) : Prop :=
  match p with SUnlock Wait | SRet Wait => True | _ => calling p = false /\ ph = PWaiting end.

Definition PInv1 (es : list qevent) (p : qpc) (ph : phase) (n : nat) : Prop :=
  (forall w, wcarry p = Some w -> passed n es = Some w) /\ (agrees p ph -> given n es = passed n es) /\ in_call n es = calling p.
Definition PInv (es : list qevent) (s : qsys) : Prop := forall n, PInv1 es (q_pc s n) (q_phase s n) n.

Lemma pinv_step debug es s i spur s' e : QInv es s -> PInv es s -> qstep debug s i spur = Some (s', e) -> e <> Some (EUb i) ->
  PInv (app_ev e es) s'.
Proof.
  intros HI HP Hs Hub. destruct (qstep_agent _ _ _ _ _ _ Hs) as (Ha & Hp & Hph).
  assert (Hfail : e = Some (EAssert i) -> may_fail (q_pc s i)).
  { intros He. exact (proj2 (qinv_step debug es s i spur s' e HI Hs Hub) He). }
  intros n. destruct (Nat.eq_dec n i) as [->|Hn].
  2:{ rewrite (Hp n Hn), (Hph n Hn). specialize (HP n). revert HP. unfold PInv1. destruct e as [[]|]; try contradiction; subst; auto;
      cbn [app_ev passed given in_call]; rewrite ?(proj2 (Nat.eqb_neq i n)) by congruence; auto. }
  specialize (HP i). destruct HP as (P1 & P2 & P3). clear Hp Hph Ha.
  unfold PInv1. qcases Hs E s i; cbn [app_ev passed given in_call]; unfold with_pc, with_mem, with_phase, with_state, with_lock; cbn [q_pc q_phase].
  all: try (destruct Hub; reflexivity).
  all: try (destruct (Hfail eq_refl) as [v Hv]; discriminate).
  all: rewrite ?pset_same, ?Nat.eqb_refl; cbn [wcarry agrees calling] in *.
  all: try solve [split; [first [discriminate|exact P1]|split; [first [exact P2|tauto|intros; discriminate|intros [? ?]; discriminate]|exact P3]]].
  - split; [discriminate|]. split; [intros _; symmetry; now apply P1|exact P3].
  - split; [discriminate|]. split; [|reflexivity]. intros [_ Hx]. destruct r; simpl in *; [auto|discriminate|].
    destruct (q_phase s i); discriminate.
  - split; [discriminate|]. split; [intros _; symmetry; now apply P1|exact P3].
  - rewrite E. auto.
  - rewrite E. auto.
  - rewrite E. auto.
Qed.

(** What a call does, for invariants about single agents. *)
Lemma qcall_agent debug s a s' e : (forall i spur, a <> QStep i spur) -> qstep_sys debug s a = Some (s', e) ->
  exists i p' ph', q_pc s i = QIdle /\ (forall j, q_pc s' j = pset (q_pc s) i p' j) /\ (forall j, q_phase s' j = pset (q_phase s) i ph' j) /\
    q_state s' = q_state s /\ q_lock s' = q_lock s /\ q_list s' = q_list s /\ (forall j, j <> i -> q_heap s' j = q_heap s j) /\
    ((e = Some (ENew i) /\ p' = QIdle /\ q_phase s i = PAbsent /\ ph' = PFresh /\ q_heap s' i = waiter_new) \/
     (q_heap s' i = q_heap s i /\
      ((exists w, e = Some (EStart i w) /\ p' = SCas w /\ ph' = q_phase s i /\ (ph' = PFresh \/ ph' = PWoken)) \/
       (exists w, e = Some (ECont i w) /\ p' = CLoad w /\ ph' = q_phase s i /\ (ph' = PWaiting \/ ph' = PWoken)) \/
       (e = Some (ECallNotify i) /\ p' = TLoad /\ ph' = q_phase s i) \/
       (e = Some (ECallClose i) /\ p' = KSwap /\ ph' = q_phase s i) \/
       (e = Some (EFreed i) /\ p' = QIdle /\ ph' = PGone /\ (q_phase s i = PFresh \/ q_phase s i = PWoken \/ q_phase s i = PDone)) \/
       (e = Some (EDrop i) /\ p' = DLoad /\ ph' = PWaiting /\ q_phase s i = PWaiting) \/
       (e = Some (ETimeout i) /\ p' = QIdle /\ ph' = PGone /\ q_phase s i = PWaiting)))).
Proof.
  intros Ha Hs. destruct a as [i|i w|i w|i|i|i|i|i|i spur]; try (destruct (Ha i spur); reflexivity); qcalls Hs s i E Ep; exists i.
  all: unfold with_phase, with_mem, with_pc; cbn [q_state q_lock q_list q_heap q_pc q_phase].
  all: match goal with
    | |- context [app_ev] => idtac
    | |- exists p' ph', _ /\ _ /\ _ /\ _ /\ _ /\ _ /\ _ /\ ((Some (ENew _) = _ /\ _) \/ _) => exists QIdle, PFresh
    | |- exists p' ph', _ /\ _ /\ _ /\ _ /\ _ /\ _ /\ _ /\ ((Some (EStart _ ?w) = _ /\ _) \/ _) => exists (SCas w), (q_phase s i)
    | |- exists p' ph', _ /\ _ /\ _ /\ _ /\ _ /\ _ /\ _ /\ ((Some (ECont _ ?w) = _ /\ _) \/ _) => exists (CLoad w), (q_phase s i)
    | |- exists p' ph', _ /\ _ /\ _ /\ _ /\ _ /\ _ /\ _ /\ ((Some (ECallNotify _) = _ /\ _) \/ _) => exists TLoad, (q_phase s i)
    | |- exists p' ph', _ /\ _ /\ _ /\ _ /\ _ /\ _ /\ _ /\ ((Some (ECallClose _) = _ /\ _) \/ _) => exists KSwap, (q_phase s i)
    | |- exists p' ph', _ /\ _ /\ _ /\ _ /\ _ /\ _ /\ _ /\ ((Some (EFreed _) = _ /\ _) \/ _) => exists QIdle, PGone
    | |- exists p' ph', _ /\ _ /\ _ /\ _ /\ _ /\ _ /\ _ /\ ((Some (EDrop _) = _ /\ _) \/ _) => exists DLoad, PWaiting
    | |- exists p' ph', _ /\ _ /\ _ /\ _ /\ _ /\ _ /\ _ /\ ((Some (ETimeout _) = _ /\ _) \/ _) => exists QIdle, PGone
    end.
  all: (split; [exact E|]); (split; [intros j; unfold pset; destruct (Nat.eqb_spec j i) as [->|]; auto; fail|]);
       (split; [intros j; unfold pset; destruct (Nat.eqb_spec j i) as [->|]; auto; fail|]);
       (split; [reflexivity|]); (split; [reflexivity|]); (split; [reflexivity|]).
  all: (split; [intros j Hj; rewrite ?hset_other by exact Hj; reflexivity|]).
  all: try (left; rewrite hset_same; auto; fail).
  all: right; (split; [reflexivity|]).
  all: try (left; eauto 8; fail).
  all: try (right; left; eauto 8; fail).
  all: tauto.
Qed.

Lemma pinv_run {G} debug es s : lrun G debug es s -> no_ub es -> PInv es s.
Proof.
  apply (@qrun_ind2 G debug PInv no_ub); [exact no_ub_tail|auto|..].
  - intros n. split; [discriminate|]. split; [intros [_ Hx]; discriminate|reflexivity].
  - intros es0 s0 i spur s' e _ Hu HI HO Hs. apply (pinv_step debug es0 s0 i spur); auto. intros ->. apply (Hu i). now left.
  - intros es0 s0 a s' e _ _ _ HP Ha Hs.
    destruct (qcall_agent _ _ _ _ _ Ha Hs) as (i & p' & ph' & E & Hp & Hph & _ & _ & _ & _ & Hc). intros n. rewrite (Hp n), (Hph n).
    specialize (HP n). unfold PInv1 in *.
    destruct (Nat.eq_dec n i) as [->|Hn].
    + rewrite !pset_same. rewrite E in HP. cbn [wcarry agrees calling] in HP. destruct HP as (_ & P2 & P3).
      repeat match goal with H : _ \/ _ |- _ => destruct H | H : _ /\ _ |- _ => destruct H | H : exists _, _ |- _ => destruct H end; subst;
      cbn [app_ev passed given in_call wcarry agrees calling]; rewrite ?Nat.eqb_refl;
      (split; [first [discriminate|congruence]|split; [try (intros [Hy Hx]); first [discriminate|solve [auto]|congruence|apply P2; split; congruence]|auto]]).
    + rewrite !pset_other by exact Hn.
      assert (Hx : passed n (app_ev e es0) = passed n es0 /\ given n (app_ev e es0) = given n es0 /\ in_call n (app_ev e es0) = in_call n es0).
      { repeat match goal with H : _ \/ _ |- _ => destruct H | H : _ /\ _ |- _ => destruct H | H : exists _, _ |- _ => destruct H end; subst;
        cbn [app_ev passed given in_call]; rewrite ?(proj2 (Nat.eqb_neq i n)) by congruence; auto. }
      destruct Hx as (-> & -> & ->). exact HP.
  - intros es0 s0 i p' _ _ _ HP Hs n. unfold with_pc. cbn [q_pc q_phase]. destruct (Nat.eq_dec n i) as [->|Hn]; [rewrite pset_same|rewrite pset_other by exact Hn; apply HP].
    specialize (HP i). unfold PInv1 in *. stales Hs; rewrite E in HP; cbn [wcarry agrees calling] in *; try exact HP;
      try (destruct HP as (P1 & P2 & P3); split; [discriminate|split; [intros [Hx _]; discriminate|exact P3]]).
    all: destruct H' as [->| ->]; exact HP.
Qed.

(** ** What waiters are told. *)
Lemma enqueue_state h l n h' l' m : enqueue h l n = (h', l') -> n_state (h' m) = n_state (h m).
Proof. unfold enqueue. intros Hx. injection Hx as <- _. destruct (l_head l); autorewrite with mem; reflexivity. Qed.
Lemma dequeue_state h l n h' l' w m : dequeue_links h l n = (h', l', w) -> n_state (h' m) = n_state (h m).
Proof. unfold dequeue_links. intros Hx. destruct (n_prev (h n)); injection Hx as <- _ _; autorewrite with mem; reflexivity. Qed.
Lemma remove_state h l n h' l' ok m : list_remove h l n = (h', l', ok) -> n_state (h' m) = n_state (h m).
Proof.
  unfold list_remove. destruct (n_prev (h n)), (n_next (h n)); intros Hx; injection Hx as <- _ _; autorewrite with mem; reflexivity.
Qed.

Lemma qstep_states debug es s i spur s' e : QInv es s -> qstep debug s i spur = Some (s', e) -> e <> Some (EUb i) ->
  (exists n st q, e = Some (ESwap i n st) /\ (st = Q_WAKING \/ st = Q_CLOSED) /\ waiting es = n :: q /\ q_pc s' i <> q_pc s i /\ (n = i -> calling (q_pc s' i) = false) /\
     forall m, n_state (q_heap s' m) = if Nat.eqb m n then st else n_state (q_heap s m)) \/
  ((forall n st, e <> Some (ESwap i n st)) /\
   forall m, n_state (q_heap s' m) = n_state (q_heap s m) \/ (m = i /\ exists w, q_pc s i = SSwap w /\ q_pc s' i = SEnq w)).
Proof.
  intros HI Hs Hub.
  qcases Hs E s i; unfold with_pc, with_mem, with_phase, with_state, with_lock; cbn [q_pc q_heap]; rewrite ?pset_same.
  all: try (destruct Hub; reflexivity).
  all: try (right; split; [discriminate|]; intros m; first [left; reflexivity
    | left; autorewrite with mem; reflexivity | left; eapply enqueue_state; eassumption | left; eapply dequeue_state; eassumption
    | left; eapply remove_state; eassumption
    | match goal with |- context [set_state _ _ _] => autorewrite with mem; destruct (Nat.eqb_spec m i) as [->|]; [right; eauto|left; reflexivity] end]).
  all: left; match goal with H : l_tail _ = Some ?n, H1 : Some (ESwap _ ?n ?st) <> _ |- _ =>
    destruct (fun A B C D F G => qinv_take es s i n Q_WAKING (TLinks n) HI A B C D F G H) as [_ [q Hq]]; [rewrite ?E; auto..|]; exists n, st, q; (split; [reflexivity|]); (split; [auto|]); (split; [exact Hq|]);
    (split; [discriminate|]); (split; [reflexivity|]); intros m; autorewrite with mem; reflexivity end.
Qed.

Definition VInv (es : list qevent) (s : qsys) : Prop :=
  (forall n v, verdict n es = Some v -> given n es <> None /\ (v = Q_WAKING \/ v = Q_CLOSED) /\
     (n_state (q_heap s n) = v \/ (v = Q_WAKING /\ exists w, q_pc s n = SEnq w))) /\
  (forall n v, told n es = Some v -> verdict n es = Some v /\
     ((exists w, q_pc s n = CLoad w \/ q_pc s n = CLock w \/ q_pc s n = CLoad2 w) \/ exists r, (q_pc s n = SRet r \/ q_pc s n = SUnlock r) /\ says v r)).


Lemma vinv_step debug es s i spur s' e : QInv es s -> VInv es s -> qstep debug s i spur = Some (s', e) -> e <> Some (EUb i) ->
  VInv (app_ev e es) s'.
Proof.
  intros HI [V1 V2] Hs Hub. destruct (qstep_agent _ _ _ _ _ _ Hs) as (Ha & Hp & Hph).
  pose proof (qstep_states debug es s i spur s' e HI Hs Hub) as Hst.
  assert (Hfail : e = Some (EAssert i) -> may_fail (q_pc s i)).
  { intros He. exact (proj2 (qinv_step debug es s i spur s' e HI Hs Hub) He). }
  destruct Hst as [(n & st & q & -> & Hv & Hq & Hne & Hcal & Hst)|[Hnsw Hst]].
  - (* ESwap *)
    assert (Hin : In n (waiting es)) by (rewrite Hq; now left).
    assert (Hno : told n es = None).
    { destruct (told n es) as [v|] eqn:Et; [|reflexivity]. exfalso. destruct (V2 n v Et) as [Hver Hpc].
      destruct (V1 n v Hver) as (_ & Hvv & [Hx|[_ [w Hx]]]).
      - rewrite (I_wait _ _ HI n Hin) in Hx. destruct Hvv; subst; discriminate.
      - destruct Hpc as [[w' [Hpc|[Hpc|Hpc]]]|[r [[Hpc|Hpc] _]]]; congruence. }
    split.
    + intros m v. cbn [app_ev verdict given]. rewrite (Hst m). destruct (Nat.eqb_spec n m) as [->|Hnm].
      * intros Hx. injection Hx as ->. split; [apply waiting_given; exact Hin|]. rewrite Nat.eqb_refl. auto.
      * intros Hx. destruct (V1 m v Hx) as (X1 & X2 & X3). split; [exact X1|]. split; [exact X2|].
        rewrite (proj2 (Nat.eqb_neq m n)) by congruence. destruct X3 as [X3|[-> [w X3]]]; [auto|].
        destruct (Nat.eq_dec m i) as [->|Hmi]; [|rewrite (Hp m Hmi); eauto].
        exfalso. unfold qstep in Hs. rewrite X3 in Hs.
        destruct (forallb (live s) (enqueue_touches (q_list s))); [|discriminate].
        destruct (enqueue (q_heap s) (q_list s) i); discriminate.
    + intros m v. cbn [app_ev verdict told]. intros Hx. destruct (V2 m v Hx) as [X1 X2].
      destruct (Nat.eqb_spec n m) as [->|Hnm]; [congruence|]. split; [exact X1|].
      destruct (Nat.eq_dec m i) as [->|Hmi]; [|rewrite (Hp m Hmi); exact X2].
      exfalso. destruct X2 as [[w [X2|[X2|X2]]]|[r [[X2|X2] _]]]; unfold qstep, failed in Hs; rewrite X2 in Hs;
        repeat match type of Hs with context [if ?b then _ else _] => destruct b | context [match q_lock s with _ => _ end] => destruct (q_lock s) end; discriminate.
  - assert (Hver : forall m v, verdict m (app_ev e es) = Some v -> verdict m es = Some v).
    { intros m v. destruct e as [[]|]; auto; cbn [app_ev verdict].
      - destruct (Nat.eqb_spec i0 m); [discriminate|auto].
      - simpl in Ha. subst. destruct (Hnsw n st). reflexivity. }
    assert (Hgv : forall m, given m es <> None -> given m (app_ev e es) <> None).
    { intros m Hm. destruct e as [[]|]; auto; cbn [app_ev given]; destruct (Nat.eqb i0 m); auto; discriminate. }
    split.
    + intros m v Hx. pose proof (Hver _ _ Hx) as Hx0. destruct (V1 m v Hx0) as (X1 & X2 & X3). split; [auto|]. split; [exact X2|].
      destruct (Hst m) as [Hsame|(-> & w & Hp1 & Hp2)].
      * rewrite Hsame. destruct X3 as [X3|[-> [w X3]]]; [auto|].
        destruct (Nat.eq_dec m i) as [->|Hmi]; [|rewrite (Hp m Hmi); eauto].
        exfalso. unfold qstep in Hs. rewrite X3 in Hs.
        destruct (forallb (live s) (enqueue_touches (q_list s))); [|injection Hs as <- <-; destruct Hub; reflexivity].
        destruct (enqueue (q_heap s) (q_list s) i); injection Hs as <- <-. cbn [app_ev verdict] in Hx. rewrite Nat.eqb_refl in Hx. discriminate.
      * right. split; [|eauto]. destruct X3 as [X3|[-> _]]; [|reflexivity].
        pose proof (I_node _ _ HI i) as Hi. rewrite Hp1 in Hi. cbn [node_ok] in Hi.
        destruct Hi as [[Hph1|Hph1] Hr]; rewrite Hph1 in Hr; simpl in Hr; destruct Hr as [Hr _]; rewrite Hr in X3; destruct X2 as [-> | ->]; try reflexivity; exfalso; discriminate X3.
    + intros m v Hx.
      assert (Hx0 : told m es = Some v /\ (forall r, e = Some (ERet i r) -> m <> i)).
      { destruct e as [[]|]; cbn [app_ev told] in Hx; try contradiction; (split; [|try discriminate]); auto;
        subst; destruct (Nat.eqb_spec i m) as [->|Hne]; try discriminate; auto. }
      destruct Hx0 as [Hx0 Hnr]. destruct (V2 m v Hx0) as [X1 X2].
      assert (Hv' : verdict m (app_ev e es) = Some v).
      { destruct e as [[]|]; auto; cbn [app_ev verdict].
        - simpl in Ha. subst. destruct (Nat.eqb_spec i m) as [->|]; [|exact X1]. exfalso.
          clear - X2 Hs. destruct X2 as [[w' [X2|[X2|X2]]]|[r [[X2|X2] _]]]; unfold qstep, failed in Hs; rewrite X2 in Hs;
            repeat match type of Hs with context [if ?b then _ else _] => destruct b | context [match q_lock s with _ => _ end] => destruct (q_lock s) end; discriminate.
        - simpl in Ha. subst. destruct (Hnsw n st). reflexivity. }
      split; [exact Hv'|].
      destruct (Nat.eq_dec m i) as [->|Hmi]; [|rewrite (Hp m Hmi); exact X2].
      destruct X2 as [[w X2]|[r [[X2|X2] X3]]].
      * destruct (V1 i v X1) as (_ & Y2 & [Y3|[_ [w' Y3]]]); [|destruct X2 as [?|[?|?]]; congruence].
        unfold qstep in Hs. destruct X2 as [X2|[X2|X2]]; rewrite X2, ?Y3 in Hs.
        2:{ left. exists w. destruct (q_lock s); [discriminate|]. injection Hs as <- <-. cbn [with_pc with_lock q_pc]. rewrite pset_same. auto. }
        all: right; destruct Y2 as [-> | ->]; simpl in Hs; injection Hs as <- <-;
        cbn [with_pc q_pc]; rewrite pset_same; eexists; (split; [eauto|]); [left|right]; auto.
      * exfalso. unfold qstep in Hs. rewrite X2 in Hs. injection Hs as <- <-. exact (Hnr r eq_refl eq_refl).
      * right. exists r. split; [left|exact X3]. unfold qstep in Hs. rewrite X2 in Hs. injection Hs as <- <-. cbn [with_pc with_lock q_pc]. apply pset_same.
Qed.

Lemma vinv_run {G} debug es s : lrun G debug es s -> no_ub es -> VInv es s.
Proof.
  apply (@qrun_ind2 G debug VInv no_ub); [exact no_ub_tail|auto|..].
  - split; intros n v; simpl; discriminate.
  - intros es0 s0 i spur s' e _ Hu HI HO Hs. apply (vinv_step debug es0 s0 i spur); auto. intros ->. apply (Hu i). now left.
  - intros es0 s0 a s' e Hr Hu HI [V1 V2] Ha Hs.
    destruct (qrun_inv _ _ _ Hr (no_ub_tail _ _ Hu)) as [_ Hgv].
    destruct (qcall_agent _ _ _ _ _ Ha Hs) as (i & p' & ph' & E & Hp & Hph & _ & _ & _ & Hh & Hc).
    assert (Hvg : forall m, verdict m (app_ev e es0) = verdict m es0 /\ given m (app_ev e es0) = given m es0).
    { intros m. clear - Hc. repeat match goal with H : _ \/ _ |- _ => destruct H | H : _ /\ _ |- _ => destruct H | H : exists _, _ |- _ => destruct H end; subst; auto. }
    assert (Hns : forall m v, verdict m es0 = Some v -> n_state (q_heap s' m) = n_state (q_heap s0 m)).
    { intros m v Hm. destruct (Nat.eq_dec m i) as [->|Hmi]; [|now rewrite Hh].
      destruct Hc as [(_ & _ & Hab & _)|[-> _]]; [|reflexivity]. destruct (proj1 (V1 i v Hm)). auto. }
    split.
    + intros m v. rewrite (proj1 (Hvg m)), (proj2 (Hvg m)). intros Hx. destruct (V1 m v Hx) as (X1 & X2 & X3).
      split; [exact X1|]. split; [exact X2|]. rewrite (Hns m v Hx). destruct X3 as [X3|[-> [w X3]]]; [auto|].
      right. split; [reflexivity|]. exists w. rewrite (Hp m), pset_other; [exact X3|]. congruence.
    + intros m v Hx. rewrite (proj1 (Hvg m)).
      destruct (Nat.eq_dec m i) as [->|Hmi].
      * assert (Hn : told i es0 = None).
        { destruct (told i es0) as [v0|] eqn:Et; [|reflexivity]. destruct (V2 i v0 Et) as [_ [[w [Hy|[Hy|Hy]]]|[r [[Hy|Hy] _]]]]; congruence. }
        rewrite (Hp i), pset_same.
        repeat match goal with H : _ \/ _ |- _ => destruct H | H : _ /\ _ |- _ => destruct H | H : exists _, _ |- _ => destruct H end; subst;
        cbn [app_ev told] in Hx; rewrite ?Nat.eqb_refl in Hx; try congruence; eauto.
      * assert (Hx0 : told m es0 = Some v).
        { clear - Hc Hx Hmi. repeat match goal with H : _ \/ _ |- _ => destruct H | H : _ /\ _ |- _ => destruct H | H : exists _, _ |- _ => destruct H end; subst;
          cbn [app_ev told] in Hx; rewrite ?(proj2 (Nat.eqb_neq i m)) in Hx by congruence; exact Hx. }
        destruct (V2 m v Hx0) as [X1 X2]. split; [exact X1|]. rewrite (Hp m), pset_other by exact Hmi. exact X2.
  - intros es0 s0 i p' _ _ _ [V1 V2] Hs. split.
    + intros m v Hx. destruct (V1 m v Hx) as (X1 & X2 & X3). split; [exact X1|]. split; [exact X2|]. destruct X3 as [X3|[-> [w X3]]]; [left; exact X3|].
      right. split; [reflexivity|]. exists w. unfold with_pc. cbn [q_pc]. rewrite pset_other; [exact X3|]. intros ->. stales Hs; congruence.
    + intros m v Hx. destruct (V2 m v Hx) as [X1 X2]. split; [exact X1|]. unfold with_pc. cbn [q_pc].
      destruct (Nat.eq_dec m i) as [->|Hm]; [rewrite pset_same|rewrite pset_other by exact Hm; exact X2].
      destruct X2 as [[w0 [X2|[X2|X2]]]|[r [[X2|X2] X3]]]; stales Hs; try congruence. left. eauto.
Qed.

Theorem told_result {G} debug es s es2 n r es1 v :
  lrun G debug es s -> no_ub es -> es = es2 ++ ERet n r :: es1 -> told n es1 = Some v -> says v r.
Proof.
  intros Hr Hu He Ht. destruct (qrun_split _ _ _ Hr _ _ _ He) as (s1 & a & s2 & Hr1 & Hs & Hr2).
  assert (Hu1 : no_ub es1) by (subst es; apply no_ub_app in Hu; intros i Hi; apply (Hu i); now right).
  destruct (vinv_run _ _ _ Hr1 Hu1) as [_ V2]. destruct (V2 n v Ht) as [_ Hpc].
  destruct a as [i|i w|i w|i|i|i|i|i|i spur]; cbn [qstep_sys] in Hs;
    try (destruct (idle s1 i); try discriminate; destruct (q_phase s1 i); congruence).
  destruct (qstep_agent _ _ _ _ _ _ Hs) as (Ha & _). simpl in Ha. subst i.
  unfold qstep, failed in Hs. destruct Hpc as [[w [Hpc|[Hpc|Hpc]]]|[r' [[Hpc|Hpc] Hsay]]]; rewrite Hpc in Hs;
    try (repeat match type of Hs with context [if ?b then _ else _] => destruct b | context [match q_lock s1 with _ => _ end] => destruct (q_lock s1) end; discriminate).
  congruence.
Qed.

(** ** The state word. *)
Lemma qstep_state debug s i spur s' e : qstep debug s i spur = Some (s', e) ->
  (q_state s' = q_state s /\ match e with Some (EConsumed _ | EClosed _) => False | Some (EStored _) => q_state s = Q_WAKING | _ => True end) \/
  (e = Some (EConsumed i) /\ q_state s = Q_WAKING /\ q_state s' = Q_EMPTY) \/
  (e = None /\ (exists w, q_pc s i = SCasEmpty w /\ q_pc s' i = SNode w) /\ q_state s = Q_EMPTY /\ q_state s' = Q_WAITING) \/
  (e = Some (EStored i) /\ q_pc s i = TCas (q_state s) /\ q_state s' = Q_WAKING) \/
  (e = None /\ (exists o, q_pc s i = TEmpty o /\ q_pc s' i = TUnlock o) /\ list_is_empty (q_list s) = true /\ q_state s' = Q_EMPTY) \/
  (e = Some (EClosed i) /\ q_pc s i = KSwap /\ q_state s' = Q_CLOSED) \/
  (e = None /\ q_pc s i = DEmpty /\ q_pc s' i = DUnlock /\ list_is_empty (q_list s) = true /\ q_state s = Q_WAITING /\ q_state s' = Q_EMPTY).
Proof.
  intros Hs. qcases Hs E s i; unfold with_pc, with_mem, with_phase, with_state, with_lock; cbn [q_pc q_state]; rewrite ?pset_same.
  all: try (left; split; [reflexivity|exact I]).
  all: try match goal with H : (_ && _)%bool = true |- _ => apply andb_prop in H; destruct H as [? ?] end.
  all: repeat match goal with H : (_ =? _)%N = true |- _ => apply N.eqb_eq in H end.
  - right; left. auto.
  - right; right; left. eauto 8.
  - right; left. auto.
  - right; right; right; left. subst. auto.
  - right; right; right; right; left. eauto 8.
  - right; right; right; right; right; left. auto.
  - right; right; right; right; right; right. auto 8.
Qed.

Definition is_t (p : qpc) : bool :=
  match p with TLoad | TCas _ | TLock _ | TSlow _ | TLinks _ | TEmpty _ | TUnlock _ | TWake _ _ | TRet _ => true | _ => false end.
Definition is_d (p : qpc) : bool :=
  match p with DLoad | DLock | DRemove | DEmpty | DUnlock | DFree => true | _ => false end.
Definition is_k (p : qpc) : bool :=
  match p with KSwap | KLock | KLoop | KLinks _ | KWake _ _ | KUnlock => true | _ => false end.
Definition swapped (p : qpc) : bool := match p with KSwap => false | _ => is_k p end.
Definition past_lock (p : qpc) : bool := match p with KSwap | KLock => false | _ => is_k p end.
Definition queuing (p : qpc) : bool := match p with SNode _ | SSwap _ | SEnq _ => true | _ => false end.

(** Which calls are in progress. *)
Definition BInv (es : list qevent) (s : qsys) : Prop :=
  forall i, in_notify i es = is_t (q_pc s i) /\ in_drop i es = is_d (q_pc s i) /\
    (is_k (q_pc s i) = true -> In (ECallClose i) es) /\ (swapped (q_pc s i) = true -> In (EClosed i) es).

Lemma binv_step debug es s i spur s' e : QInv es s -> BInv es s -> qstep debug s i spur = Some (s', e) -> e <> Some (EUb i) ->
  BInv (app_ev e es) s'.
Proof.
  intros HI HB Hs Hub. destruct (qstep_agent _ _ _ _ _ _ Hs) as (Ha & Hp & _).
  assert (Hfail : e = Some (EAssert i) -> may_fail (q_pc s i)).
  { intros He. exact (proj2 (qinv_step debug es s i spur s' e HI Hs Hub) He). }
  intros n. destruct (HB n) as (B1 & B2 & B3 & B4).
  assert (Hin : forall x, In x es -> In x (app_ev e es)) by (intros x Hx; destruct e; [right|]; exact Hx).
  destruct (Nat.eq_dec n i) as [->|Hn].
  2:{ rewrite (Hp n Hn). split; [|split; [|split; auto]].
      - rewrite <- B1. destruct e as [[]|]; try contradiction; subst; auto; cbn [app_ev in_notify]; rewrite ?(proj2 (Nat.eqb_neq i n)) by congruence; auto.
      - rewrite <- B2. destruct e as [[]|]; try contradiction; subst; auto; cbn [app_ev in_drop]; rewrite ?(proj2 (Nat.eqb_neq i n)) by congruence; auto. }
  clear Hp Ha HB. revert Hin.
  qcases Hs E s i; cbn [app_ev in_notify in_drop]; unfold with_pc, with_mem, with_phase, with_state, with_lock; cbn [q_pc q_phase]; intros Hin.
  all: try (destruct Hub; reflexivity).
  all: try (destruct (Hfail eq_refl) as [v Hv]; discriminate).
  all: rewrite ?pset_same, ?Nat.eqb_refl, ?E; cbn [is_t is_d is_k swapped] in *.
  all: try (split; [first [exact B1|reflexivity]|split; [first [exact B2|reflexivity]|split; [first [discriminate|intros; apply Hin; auto]|first [discriminate|intros; now left|intros; apply Hin; auto]]]]).
Qed.

Lemma binv_run {G} debug es s : lrun G debug es s -> no_ub es -> BInv es s.
Proof.
  apply (@qrun_ind2 G debug BInv no_ub); [exact no_ub_tail|auto|..].
  - intros n. simpl. repeat split; discriminate.
  - intros es0 s0 i spur s' e _ Hu HI HO Hs. apply (binv_step debug es0 s0 i spur); auto. intros ->. apply (Hu i). now left.
  - intros es0 s0 a s' e Hr Hu HI HB Ha Hs.
    destruct (qcall_agent _ _ _ _ _ Ha Hs) as (i & p' & ph' & E & Hp & Hph & _ & _ & _ & _ & Hc).
    assert (Hin : forall x, In x es0 -> In x (app_ev e es0)) by (intros x Hx; destruct e; [right|]; exact Hx).
    intros n. rewrite (Hp n). destruct (HB n) as (B1 & B2 & B3 & B4). destruct (Nat.eq_dec n i) as [->|Hn].
    + rewrite pset_same. rewrite E in *. cbn [is_t is_d is_k swapped] in *.
      repeat match goal with H : _ \/ _ |- _ => destruct H | H : _ /\ _ |- _ => destruct H | H : exists _, _ |- _ => destruct H end; subst;
      cbn [app_ev in_notify in_drop is_t is_d is_k swapped]; rewrite ?Nat.eqb_refl;
      (split; [auto|split; [auto|split; [first [discriminate|intros; now left]|discriminate]]]).
    + rewrite pset_other by exact Hn.
      assert (Hx : in_notify n (app_ev e es0) = in_notify n es0 /\ in_drop n (app_ev e es0) = in_drop n es0).
      { clear - Hc Hn. repeat match goal with H : _ \/ _ |- _ => destruct H | H : _ /\ _ |- _ => destruct H | H : exists _, _ |- _ => destruct H end; subst;
        cbn [app_ev in_notify in_drop]; rewrite ?(proj2 (Nat.eqb_neq i n)) by congruence; auto. }
      destruct Hx as [-> ->]. auto 8.
  - intros es0 s0 i p' _ _ _ HB Hs n. unfold with_pc. cbn [q_pc]. destruct (Nat.eq_dec n i) as [->|Hn]; [rewrite pset_same|rewrite pset_other by exact Hn; apply HB].
    specialize (HB i). stales Hs; rewrite E in HB; try exact HB; destruct H' as [->| ->]; exact HB.
Qed.

(** ** Closing. *)
Record CInv (es : list qevent) (s : qsys) : Prop := {
  C_quiet : forall k, In (ECallClose k) es -> forall i, is_t (q_pc s i) = false;
  C_call : q_closed es = true -> exists k, In (ECallClose k) es;
  C_state : q_closed es = true -> q_state s = Q_CLOSED;
  C_swept : (exists k, past_lock (q_pc s k) = true \/ In (ERetClose k) es) -> q_closed es = true /\ forall n, queuing (q_pc s n) = false;
  C_done : (exists k, q_pc s k = KUnlock \/ In (ERetClose k) es) -> waiting es = []
}.

Lemma closed_tail e es : q_closed es = true -> q_closed (app_ev e es) = true.
Proof. intros H. destruct e as [x|]; [|exact H]. unfold q_closed in *. simpl. rewrite H. apply orb_true_r. Qed.
Lemma closed_in es : q_closed es = true <-> exists k, In (EClosed k) es.
Proof.
  unfold q_closed. rewrite existsb_exists. split.
  - intros ([] & H1 & H2); try discriminate. eauto.
  - intros [k Hk]. exists (EClosed k). auto.
Qed.

Definition close_ok (es : list qevent) : Prop := no_ub es /\ close_exclusive es.
Lemma close_ok_tail e es : close_ok (app_ev e es) -> close_ok es.
Proof. intros [H1 H2]. split; [exact (no_ub_tail _ _ H1)|]. destruct e as [[]|]; simpl in H2; tauto. Qed.

Lemma cinv_step debug es s i spur s' e : QInv es s -> BInv es s -> CInv es s -> close_ok (app_ev e es) ->
  qstep debug s i spur = Some (s', e) -> CInv (app_ev e es) s'.
Proof.
  intros HI HB HC [Hu Hx] Hs. destruct (qstep_agent _ _ _ _ _ _ Hs) as (Ha & Hp & _).
  assert (Hub : e <> Some (EUb i)) by (intros ->; apply (Hu i); now left).
  assert (HB' := binv_step debug es s i spur s' e HI HB Hs Hub).
  assert (Hcl : forall k, In (ECallClose k) (app_ev e es) -> In (ECallClose k) es).
  { intros k Hk. destruct e as [x|]; [|exact Hk]. destruct Hk as [->|Hk]; [contradiction|exact Hk]. }
  assert (Hin : forall x, In x es -> In x (app_ev e es)) by (intros x Hx'; destruct e; [right|]; exact Hx').
  assert (Hst : q_closed (app_ev e es) = true -> q_state s' = Q_CLOSED).
  { intros Hc. destruct (qstep_state _ _ _ _ _ _ Hs) as [[Hst He]|[(-> & A & B)|[(-> & _ & A & B)|[(-> & A & B)|[(-> & [o [A _]] & B)|[(-> & A & B)|(-> & _ & A & B & D & _)]]]]]].
    - rewrite Hst. apply (C_state _ _ HC). destruct e as [[]|]; try contradiction; exact Hc.
    - apply (C_state _ _ HC) in Hc. rewrite A in Hc. discriminate.
    - apply (C_state _ _ HC) in Hc. rewrite A in Hc. discriminate.
    - exfalso. change (q_closed es = true) in Hc. destruct (C_call _ _ HC Hc) as [k Hk]. pose proof (C_quiet _ _ HC k Hk i) as Hq. rewrite A in Hq. discriminate.
    - exfalso. change (q_closed es = true) in Hc. destruct (C_call _ _ HC Hc) as [k Hk]. pose proof (C_quiet _ _ HC k Hk i) as Hq. rewrite A in Hq. discriminate.
    - exact B.
    - apply (C_state _ _ HC) in Hc. rewrite D in Hc. discriminate. }
  assert (Hlk : holds (q_pc s i) = true -> q_lock s = Some i) by apply (I_lock _ _ HI).
  (* entering the code that queues, or leaving the lock *)
  assert (Hq1 : queuing (q_pc s' i) = true -> queuing (q_pc s i) = true \/ (holds (q_pc s i) = true /\ q_state s <> Q_CLOSED)).
  { clear - Hs. qcases Hs E s i; unfold with_pc, with_mem, with_phase, with_state, with_lock; cbn [q_pc]; rewrite ?pset_same, ?E; cbn [queuing holds];
    try discriminate; auto; intros _; right; (split; [reflexivity|]); intros K; rewrite K in *; discriminate. }
  assert (Hq2 : past_lock (q_pc s' i) = true -> past_lock (q_pc s i) = true \/ (q_pc s i = KLock /\ q_lock s = None /\ e = None)).
  { clear - Hs. qcases Hs E s i; unfold with_pc, with_mem, with_phase, with_state, with_lock; cbn [q_pc]; rewrite ?pset_same, ?E; cbn [past_lock is_k];
    try discriminate; auto. }
  assert (Hq3 : q_pc s' i = KUnlock -> q_pc s i = KUnlock \/ (q_pc s i = KLoop /\ list_is_empty (q_list s) = true /\ e = None)).
  { clear - Hs. qcases Hs E s i; unfold with_pc, with_mem, with_phase, with_state, with_lock; cbn [q_pc]; rewrite ?pset_same, ?E; cbn [past_lock is_k];
    try discriminate; auto. }
  assert (Hq4 : forall k, e = Some (ERetClose k) -> k = i /\ q_pc s i = KUnlock).
  { intros k ->. simpl in Ha. subst. clear - Hs. unfold qstep, failed, undefined, s_dispatch, n_dispatch in Hs. destruct (q_pc s i) eqn:E; [discriminate|..];
    repeat match type of Hs with
    | context [if ?b then _ else _] => destruct b
    | context [match ?o with Some _ => _ | None => _ end] => destruct o
    | context [let '(_, _) := ?b in _] => destruct b as [[? ?] ?] || destruct b as [? ?]
    end; try discriminate; auto. }
  assert (Hq5 : forall w, e = Some (EEnq i w) -> queuing (q_pc s i) = true).
  { intros w ->. clear - Hs. unfold qstep, failed, undefined, s_dispatch, n_dispatch in Hs. destruct (q_pc s i) eqn:E; [discriminate|..];
    repeat match type of Hs with
    | context [if ?b then _ else _] => destruct b
    | context [match ?o with Some _ => _ | None => _ end] => destruct o
    | context [let '(_, _) := ?b in _] => destruct b as [[? ?] ?] || destruct b as [? ?]
    end; try discriminate; auto. }
  assert (Hq6 : is_t (q_pc s' i) = true -> is_t (q_pc s i) = true).
  { clear - Hs. qcases Hs E s i; unfold with_pc, with_mem, with_phase, with_state, with_lock; cbn [q_pc]; rewrite ?pset_same, ?E; cbn [is_t]; auto. }
  assert (Hswept : (exists k, past_lock (q_pc s' k) = true \/ In (ERetClose k) (app_ev e es)) ->
    (exists k, past_lock (q_pc s k) = true \/ In (ERetClose k) es) \/ (q_pc s i = KLock /\ q_lock s = None /\ e = None)).
  { intros [k [Hk|Hk]].
    - destruct (Nat.eq_dec k i) as [->|Hki]; [destruct (Hq2 Hk) as [?|?]; eauto|]. rewrite (Hp k Hki) in Hk. eauto.
    - destruct e as [x|]; [|eauto]. destruct Hk as [->|Hk]; [|eauto]. destruct (Hq4 k eq_refl) as [-> E]. left. exists i. left. rewrite E. reflexivity. }
  constructor.
  - intros k Hk j. apply Hcl in Hk. destruct (Nat.eq_dec j i) as [->|Hj]; [|rewrite (Hp j Hj); exact (C_quiet _ _ HC k Hk j)].
    destruct (is_t (q_pc s' i)) eqn:Et; [|reflexivity]. rewrite <- (Hq6 eq_refl). exact (C_quiet _ _ HC k Hk i).
  - intros Hc. destruct (q_closed es) eqn:Ec.
    + destruct (C_call _ _ HC Ec) as [k Hk]. eauto.
    + destruct e as [[]|]; unfold q_closed in *; simpl in Hc; try congruence. simpl in Ha. subst. exists i. right.
      apply (HB i). clear - Hs. unfold qstep, failed, undefined, s_dispatch, n_dispatch in Hs. destruct (q_pc s i) eqn:E; [discriminate|..];
      repeat match type of Hs with
      | context [if ?b then _ else _] => destruct b
      | context [match ?o with Some _ => _ | None => _ end] => destruct o
      | context [let '(_, _) := ?b in _] => destruct b as [[? ?] ?] || destruct b as [? ?]
      end; try discriminate; auto.
  - exact Hst.
  - intros Hk. destruct (Hswept Hk) as [Hk0|(E & El & ->)].
    + destruct (C_swept _ _ HC Hk0) as [Hc Hqn]. split; [apply closed_tail; exact Hc|]. intros n.
      destruct (Nat.eq_dec n i) as [->|Hn]; [|rewrite (Hp n Hn); apply Hqn].
      destruct (queuing (q_pc s' i)) eqn:Eq; [|reflexivity]. destruct (Hq1 eq_refl) as [Hy|[_ Hy]]; [rewrite <- Hy; apply Hqn|].
      destruct Hy. exact (C_state _ _ HC Hc).
    + split; [apply closed_in; exists i; apply (HB i); rewrite E; reflexivity|].
      intros n. destruct (queuing (q_pc s' n)) eqn:Eq; [|reflexivity]. exfalso.
      assert (Hh : queuing (q_pc s n) = true \/ (n = i)).
      { destruct (Nat.eq_dec n i) as [->|Hn]; [auto|]. rewrite (Hp n Hn) in Eq. auto. }
      destruct Hh as [Hh| ->].
      * assert (Hh' : holds (q_pc s n) = true) by (destruct (q_pc s n); try discriminate; reflexivity).
        apply (I_lock _ _ HI) in Hh'. congruence.
      * destruct (Hq1 Eq) as [Hy|[Hy _]]; rewrite E in Hy; discriminate.
  - intros [k Hk].
    assert (Hold : (exists k, q_pc s k = KUnlock \/ In (ERetClose k) es) -> waiting (app_ev e es) = []).
    { intros Hk0. pose proof (C_done _ _ HC Hk0) as Hw.
      assert (Hqn : forall n, queuing (q_pc s n) = false).
      { apply (C_swept _ _ HC). destruct Hk0 as [k0 [Hk0|Hk0]]; exists k0; [left; rewrite Hk0; reflexivity|auto]. }
      destruct e as [[]|]; try exact Hw; cbn [app_ev waiting].
      - simpl in Ha. subst. rewrite (Hqn i) in Hq5. discriminate (Hq5 w eq_refl).
      - rewrite Hw. reflexivity.
      - rewrite Hw. reflexivity. }
    destruct Hk as [Hk|Hk].
    + destruct (Nat.eq_dec k i) as [->|Hki]; [|rewrite (Hp k Hki) in Hk; eauto].
      destruct (Hq3 Hk) as [?|(E & El & ->)]; [eauto|]. simpl.
      apply (proj1 (rep_empty _ _ _ (I_rep _ _ HI))) in El.
      rewrite (holder_members es s i HI) in El by (rewrite E; reflexivity). exact El.
    + destruct e as [x|]; [|apply Hold; eauto]. destruct Hk as [->|Hk]; [|apply Hold; eauto].
      destruct (Hq4 k eq_refl) as [-> E]. apply Hold. eauto.
Qed.

Lemma cinv_run {G} debug es s : lrun G debug es s -> close_ok es -> CInv es s.
Proof.
  apply (@qrun_ind2 G debug CInv close_ok); [exact close_ok_tail|intros es0 [H _]; exact H|..].
  - constructor; simpl; try discriminate; try tauto.
    + intros [k [Hk|Hk]]; [discriminate|contradiction].
  - intros es0 s0 i spur s' e Hr Hu HI HO Hs. apply (cinv_step debug es0 s0 i spur); auto.
    apply (binv_run debug _ _ Hr). exact (proj1 (close_ok_tail _ _ Hu)).
  - intros es0 s0 a s' e Hr Hu HI HC Ha Hs. pose proof (binv_run debug _ _ Hr (proj1 (close_ok_tail _ _ Hu))) as HB.
    destruct (qcall_agent _ _ _ _ _ Ha Hs) as (i & p' & ph' & E & Hp & Hph & Hst & _ & _ & _ & Hc).
    assert (Hcl : q_closed (app_ev e es0) = q_closed es0 /\ waiting (app_ev e es0) = waiting es0 /\
      (forall k, In (ERetClose k) (app_ev e es0) <-> In (ERetClose k) es0) /\ queuing p' = false /\ past_lock p' = false /\ p' <> KUnlock).
    { clear - Hc. repeat match goal with H : _ \/ _ |- _ => destruct H | H : _ /\ _ |- _ => destruct H | H : exists _, _ |- _ => destruct H end; subst;
      repeat (split; [reflexivity|]); (split; [intros k; simpl; split; [intros [?|?]; [discriminate|assumption]|auto]|]); repeat (split; [reflexivity|]); discriminate. }
    destruct Hcl as (Hcl & Hw & Hrc & Hp1 & Hp2 & Hp3).
    assert (Hps : forall f : qpc -> bool, f p' = false -> forall n, f (q_pc s' n) = true -> f (q_pc s0 n) = true).
    { intros f Hf n. rewrite (Hp n). destruct (Nat.eq_dec n i) as [->|Hn]; [rewrite pset_same; congruence|rewrite pset_other by exact Hn; auto]. }
    constructor; rewrite ?Hcl, ?Hst, ?Hw.
    + intros k Hk j.
      assert (Hcase : (In (ECallClose k) es0 /\ (is_t p' = false \/ e = Some (ECallNotify i))) \/ (e = Some (ECallClose i) /\ p' = KSwap)).
      { clear - Hc Hk. repeat match goal with H : _ \/ _ |- _ => destruct H | H : _ /\ _ |- _ => destruct H | H : exists _, _ |- _ => destruct H end; subst;
        cbn [app_ev] in Hk; destruct Hk as [Hk|Hk]; try discriminate; auto 6. }
      destruct Hcase as [[Hk0 Hpt]|[-> ->]].
      * destruct Hpt as [Hpt| ->].
        -- destruct (is_t (q_pc s' j)) eqn:Et; [|reflexivity]. rewrite <- (Hps is_t Hpt j Et). exact (C_quiet _ _ HC k Hk0 j).
        -- exfalso. destruct Hu as [_ Hu]. simpl in Hu. exact (proj1 Hu k Hk0).
      * destruct Hu as [_ Hu]. simpl in Hu. destruct Hu as [Hu _].
        destruct (is_t (q_pc s' j)) eqn:Et; [|reflexivity]. apply (Hps is_t eq_refl) in Et. rewrite <- (proj1 (HB j)), (Hu j) in Et. discriminate.
    + intros Hx. destruct (C_call _ _ HC Hx) as [k Hk]. exists k. destruct e; [right|]; exact Hk.
    + exact (C_state _ _ HC).
    + intros [k Hk]. assert (Hk0 : exists k, past_lock (q_pc s0 k) = true \/ In (ERetClose k) es0).
      { exists k. destruct Hk as [Hk|Hk]; [left; exact (Hps past_lock Hp2 k Hk)|right; now apply Hrc]. }
      destruct (C_swept _ _ HC Hk0) as [X1 X2]. split; [exact X1|]. intros n. destruct (queuing (q_pc s' n)) eqn:Eq; [|reflexivity].
      rewrite <- (Hps queuing Hp1 n Eq). apply X2.
    + intros [k Hk]. apply (C_done _ _ HC). exists k. destruct Hk as [Hk|Hk]; [|right; now apply Hrc]. left. rewrite (Hp k) in Hk.
      destruct (Nat.eq_dec k i) as [->|Hn]; [rewrite pset_same in Hk; contradiction|now rewrite pset_other in Hk].
  - intros es0 s0 i p' Hr Hu HI HC Hs.
    assert (Hlk : holds (q_pc s0 i) = true -> q_lock s0 = Some i) by apply (I_lock _ _ HI).
    assert (Hps : forall k, past_lock (q_pc (with_pc s0 i p') k) = true -> past_lock (q_pc s0 k) = true).
    { intros k. unfold with_pc. cbn [q_pc]. destruct (Nat.eq_dec k i) as [->|Hk]; [rewrite pset_same|rewrite pset_other by exact Hk; auto].
      stales Hs; try discriminate; destruct H' as [->| ->]; discriminate. }
    constructor.
    + intros k Hk j. pose proof (C_quiet _ _ HC k Hk) as Hq. unfold with_pc. cbn [q_pc]. destruct (Nat.eq_dec j i) as [->|Hj]; [rewrite pset_same|rewrite pset_other by exact Hj; apply Hq].
      specialize (Hq i). stales Hs; rewrite E in Hq; try exact Hq; destruct H' as [->| ->]; exact Hq.
    + exact (C_call _ _ HC).
    + exact (C_state _ _ HC).
    + intros [k Hk]. assert (Hk0 : exists k, past_lock (q_pc s0 k) = true \/ In (ERetClose k) es0) by (exists k; destruct Hk as [Hk|Hk]; auto).
      destruct (C_swept _ _ HC Hk0) as [X1 X2]. split; [exact X1|]. intros n. unfold with_pc. cbn [q_pc].
      destruct (Nat.eq_dec n i) as [->|Hn]; [rewrite pset_same|rewrite pset_other by exact Hn; apply X2].
      stales Hs; try reflexivity; try (destruct H' as [->| ->]; reflexivity).
      exfalso. destruct Hk as [Hk|Hk]; [|exact (H' (proj1 Hu) (proj2 Hu) k Hk)]. apply Hps in Hk.
      assert (Hh : holds (q_pc s0 k) = true) by (destruct (q_pc s0 k); try discriminate; reflexivity).
      apply (I_lock _ _ HI) in Hh. rewrite E in Hlk. rewrite (Hlk eq_refl) in Hh. injection Hh as <-. rewrite E in Hk. discriminate.
    + intros [k Hk]. apply (C_done _ _ HC). exists k. destruct Hk as [Hk|Hk]; [|auto]. left. revert Hk. unfold with_pc. cbn [q_pc].
      destruct (Nat.eq_dec k i) as [->|Hn]; [rewrite pset_same|rewrite pset_other by exact Hn; auto].
      stales Hs; try discriminate; destruct H' as [->| ->]; discriminate.
Qed.

(** A call that starts after the queue was closed goes straight to its result (when it reads the newest value). *)
Definition LateInv (es : list qevent) (s : qsys) : Prop :=
  forall n, late n es = true -> q_closed es = true /\ ((exists w, q_pc s n = SCas w) \/ q_pc s n = SRet Closed).

Lemma late_run debug es s : qrun debug es s -> close_ok es -> LateInv es s.
Proof.
  induction 1 as [|es s a s' e Hr IH Hs]; [intros _ n; discriminate|]. change (match e with Some x => x :: es | None => es end) with (app_ev e es).
  intros Hu. pose proof (close_ok_tail _ _ Hu) as Hu0. specialize (IH Hu0). pose proof (cinv_run _ _ _ Hr Hu0) as HC.
  assert (Hcase : (exists i spur, a = QStep i spur) \/ forall i spur, a <> QStep i spur) by (destruct a; eauto; right; discriminate).
  destruct Hcase as [(i & spur & ->)|Ha].
  - cbn [qstep_sys] in Hs. destruct (qstep_agent _ _ _ _ _ _ Hs) as (Ha & Hp & _).
    intros n Hn.
    assert (Hn0 : late n es = true /\ (forall r, e = Some (ERet i r) -> n <> i)).
    { destruct e as [[]|]; try contradiction; cbn [app_ev late] in Hn; (split; [|try discriminate]); auto;
      subst; destruct (Nat.eqb_spec i n) as [->|]; try discriminate; auto. }
    destruct Hn0 as [Hn0 Hnr]. destruct (IH n Hn0) as [Hc Hpc]. split; [apply closed_tail; exact Hc|].
    destruct (Nat.eq_dec n i) as [->|Hni]; [|rewrite (Hp n Hni); exact Hpc].
    destruct Hpc as [[w Hpc]|Hpc]; unfold qstep in Hs; rewrite Hpc in Hs.
    + rewrite (C_state _ _ HC Hc) in Hs. simpl in Hs. injection Hs as <- <-. right. cbn [with_pc q_pc]. apply pset_same.
    + injection Hs as <- <-. destruct (Hnr Closed eq_refl eq_refl).
  - destruct (qcall_agent _ _ _ _ _ Ha Hs) as (i & p' & ph' & E & Hp & Hph & Hst & _ & _ & _ & Hc).
    assert (Hcl : q_closed (app_ev e es) = q_closed es).
    { clear - Hc. repeat match goal with H : _ \/ _ |- _ => destruct H | H : _ /\ _ |- _ => destruct H | H : exists _, _ |- _ => destruct H end; subst; reflexivity. }
    intros n Hn. rewrite Hcl. rewrite (Hp n). destruct (Nat.eq_dec n i) as [->|Hni].
    * rewrite pset_same.
      assert (Hl : late i es = false).
      { destruct (late i es) eqn:El; [|reflexivity]. destruct (IH i El) as [_ [[w Hy]|Hy]]; congruence. }
      repeat match goal with H : _ \/ _ |- _ => destruct H | H : _ /\ _ |- _ => destruct H | H : exists _, _ |- _ => destruct H end; subst;
      cbn [app_ev late] in Hn; rewrite ?Nat.eqb_refl in Hn; try congruence; (split; [exact Hn|eauto]).
    * rewrite pset_other by exact Hni. apply (IH).
      repeat match goal with H : _ \/ _ |- _ => destruct H | H : _ /\ _ |- _ => destruct H | H : exists _, _ |- _ => destruct H end; subst;
      cbn [app_ev late] in Hn; rewrite ?(proj2 (Nat.eqb_neq i n)) in Hn by congruence; exact Hn.
Qed.
