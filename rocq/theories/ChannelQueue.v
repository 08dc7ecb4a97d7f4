(** The wait queue as seen by the channel: a waiter told to wait is in the list,
    about to be woken, or woken. *)
From Coq Require Import List Bool Arith NArith Lia.
From Verif Require Import WaitCellModel WaitList WaitListSpec WaitListFacts WaitQueueModel WaitQueueSpec WaitQueueFacts WaitQueueSafety WaitQueueWake WaitQueueStored WaitQueueCalls.
From Verif Require Import ChannelSpec.
Import ListNotations.

Definition parks (p : qpc) (ph : phase) : Prop :=
  match p with
  | SUnlock Wait | SRet Wait => True
  | DEmpty | DUnlock | DFree => False
  | _ => calling p = false /\ ph = PWaiting
  end.
Definition attended (n : nat) (es : list qevent) : Prop :=
  In n (waiting es) \/ (exists k, owed k n es = true) \/ woken_in n es = true.
Definition KInv (es : list qevent) (s : qsys) : Prop :=
  forall n, parks (q_pc s n) (q_phase s n) -> attended n es.

(** Only its own events can end the attention. *)
Lemma attended_step n e es : attended n es ->
  match e with
  | Some (EStart j _ | ECont j _ | ERemoved j) => j <> n
  | _ => True
  end -> attended n (app_ev e es).
Proof.
  intros H He. unfold attended in *. destruct e as [e|]; [|exact H]. cbn [app_ev].
  destruct e; cbn [waiting owed woken_in]; try exact H.
  - rewrite (proj2 (Nat.eqb_neq i n) He). exact H.
  - rewrite (proj2 (Nat.eqb_neq i n) He). exact H.
  - destruct H as [H|H]; [left; apply in_or_app; now left|right; exact H].
  - destruct H as [H|[[k H]|H]].
    + destruct (Nat.eq_dec n n0) as [->|Hn].
      * right; left. exists i. now rewrite !Nat.eqb_refl.
      * left. apply without_in. split; assumption.
    + right; left. exists k. destruct (Nat.eqb i k && Nat.eqb n0 n); auto.
    + right; right; exact H.
  - destruct H as [H|[[k H]|H]].
    + left; exact H.
    + destruct (Nat.eqb_spec n0 n) as [->|Hn]; [right; right; reflexivity|].
      right; left. exists k. now rewrite andb_false_r.
    + right; right. rewrite H. now destruct (Nat.eqb n0 n).
  - destruct H as [H|H]; [left; apply without_in; split; congruence || assumption|right; exact H].
Qed.

Lemma kinv_step debug es s i spur s' e : QInv es s -> KInv es s -> qstep debug s i spur = Some (s', e) -> e <> Some (EUb i) ->
  KInv (app_ev e es) s'.
Proof.
  intros HI HK Hs Hub. destruct (qstep_agent _ _ _ _ _ _ Hs) as (Ha & Hp & Hph).
  assert (Hfail : e = Some (EAssert i) -> may_fail (q_pc s i)).
  { intros He. exact (proj2 (qinv_step debug es s i spur s' e HI Hs Hub) He). }
  intros n Hn. destruct (Nat.eq_dec n i) as [->|Hne].
  2:{ rewrite (Hp n Hne), (Hph n Hne) in Hn. apply attended_step; [now apply HK|].
      destruct e as [[]|]; try contradiction; try exact I; congruence. }
  pose proof (HK i) as K. pose proof (I_node _ _ HI i) as HN. clear HK Hp Hph Ha.
  qcases Hs E s i; unfold with_pc, with_mem, with_phase, with_state, with_lock in Hn; cbn [q_pc q_phase] in Hn; rewrite ?pset_same in Hn;
    try (destruct Hub; reflexivity); try (destruct (Hfail eq_refl) as [v Hv]; discriminate); cbn [parks calling wcarry] in *; try contradiction;
    try (destruct Hn; discriminate);
    try (apply attended_step; [apply K; assumption|exact I]); try (rewrite E in Hn; cbn in Hn; apply attended_step; [now apply K|exact I]).
  - left. cbn. apply in_or_app. right. now left.
  - destruct Hn as [_ Hn]. destruct r; simpl in Hn; [|discriminate|].
    + apply attended_step; [now apply K|exact I].
    + exfalso. destruct HN as [[[Hx|Hx] _]|[Hx _]]; rewrite Hx in Hn; discriminate.
  - left. cbn [app_ev waiting]. apply HN.
Qed.

Lemma kinv_run {G} debug es s : lrun G debug es s -> no_ub es -> KInv es s.
Proof.
  apply (@qrun_ind2 G debug KInv no_ub); [exact no_ub_tail|auto|..].
  - intros n [_ Hx]. discriminate.
  - intros es0 s0 i spur s' e _ Hu HI HO Hs. apply (kinv_step debug es0 s0 i spur); auto. intros ->. apply (Hu i). now left.
  - intros es0 s0 a s' e _ _ _ HK Ha Hs.
    destruct (qcall_agent _ _ _ _ _ Ha Hs) as (i & p' & ph' & E & Hp & Hph & _ & _ & _ & _ & Hc). intros n. rewrite (Hp n), (Hph n).
    specialize (HK n).
    destruct (Nat.eq_dec n i) as [->|Hn].
    + rewrite !pset_same. rewrite E in HK. cbn [parks calling wcarry] in HK. intros Hpk.
      repeat match goal with H : _ \/ _ |- _ => destruct H | H : _ /\ _ |- _ => destruct H | H : exists _, _ |- _ => destruct H end; subst;
        cbn [parks calling wcarry] in Hpk; try contradiction; destruct Hpk as [Hx Hy]; try discriminate;
        (apply attended_step; [apply HK; now split|exact I]).
    + rewrite !pset_other by exact Hn. intros Hpk. apply attended_step; [now apply HK|].
      repeat match goal with H : _ \/ _ |- _ => destruct H | H : _ /\ _ |- _ => destruct H | H : exists _, _ |- _ => destruct H end; subst;
        try exact I; congruence.
  - intros es0 s0 i p' _ _ _ HK Hs n. unfold with_pc. cbn [q_pc q_phase]. destruct (Nat.eq_dec n i) as [->|Hn]; [rewrite pset_same|rewrite pset_other by exact Hn; apply HK].
    specialize (HK i). stales Hs; rewrite E in HK; cbn [parks calling wcarry] in *; try exact HK; try (intros [Hx _]; discriminate); try contradiction.
    all: destruct H' as [->| ->]; exact HK.
Qed.
