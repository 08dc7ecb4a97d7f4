(** Calls of start_wait made after close has returned, in executions with old reads. *)
From Coq Require Import List Bool Arith NArith Lia.
From Verif Require Import WaitCellModel WaitList WaitListSpec WaitListFacts WaitQueueModel WaitQueueSpec WaitQueueFacts WaitQueueSafety
  WaitQueueWake WaitQueueStored WaitQueueCalls.
Import ListNotations.

(** Has a close returned? *)
Definition close_returned (es : list qevent) : bool := existsb (fun e => match e with ERetClose _ => true | _ => false end) es.

(** Owner [n] is inside a start_wait that it called after a close had returned. *)
Fixpoint after_close (n : nat) (es : list qevent) : bool :=
  match es with
  | [] => false
  | EStart i _ :: es' => if Nat.eqb i n then close_returned es' else after_close n es'
  | (ECont i _ | ERet i _) :: es' => if Nat.eqb i n then false else after_close n es'
  | _ :: es' => after_close n es'
  end.

Lemma close_returned_in es : close_returned es = true <-> exists k, In (ERetClose k) es.
Proof.
  unfold close_returned. rewrite existsb_exists. split.
  - intros ([] & H1 & H2); try discriminate. eauto.
  - intros [k Hk]. exists (ERetClose k). auto.
Qed.

Definition turned_away (p : qpc) : bool :=
  match p with SCas _ | SLock _ | SLoad _ | SCasEmpty _ | SCasWaking _ | SUnlock Closed | SRet Closed => true | _ => false end.

Definition AfterInv (es : list qevent) (s : qsys) : Prop :=
  forall n, after_close n es = true -> (exists k, In (ERetClose k) es) /\ turned_away (q_pc s n) = true.

Lemma after_run {G} debug es s : lrun G debug es s -> close_ok es -> AfterInv es s.
Proof.
  apply (@qrun_ind2 G debug AfterInv close_ok); [exact close_ok_tail|intros es0 [H _]; exact H|..].
  - intros n; discriminate.
  - intros es0 s0 i spur s' e Hr Hu HI IH Hs. pose proof (cinv_run _ _ _ Hr (close_ok_tail _ _ Hu)) as HC.
    destruct (qstep_agent _ _ _ _ _ _ Hs) as (Ha & Hp & _). intros n Hn.
    assert (Hn0 : after_close n es0 = true /\ (forall r, e = Some (ERet i r) -> n <> i)).
    { destruct e as [[]|]; try contradiction; cbn [app_ev after_close] in Hn; (split; [|try discriminate]); auto;
      subst; destruct (Nat.eqb_spec i n) as [->|]; try discriminate; auto. }
    destruct Hn0 as [Hn0 Hnr]. destruct (IH n Hn0) as [[k Hk] Hpc]. split; [exists k; destruct e; [right|]; exact Hk|].
    destruct (Nat.eq_dec n i) as [->|Hni]; [|rewrite (Hp n Hni); exact Hpc].
    destruct (C_swept _ _ HC) as [Hc _]; [eauto|]. pose proof (C_state _ _ HC Hc) as Hst.
    unfold qstep, s_dispatch in Hs. rewrite Hst in Hs. destruct (q_pc s0 i) eqn:E; try discriminate; cbn in Hs.
    + injection Hs as <- <-. cbn [with_pc q_pc]. now rewrite pset_same.
    + destruct (q_lock s0); [discriminate|]. injection Hs as <- <-. cbn [with_pc with_lock q_pc]. now rewrite pset_same.
    + injection Hs as <- <-. cbn [with_pc q_pc]. now rewrite pset_same.
    + rewrite ?andb_false_r in Hs. cbn in Hs. injection Hs as <- <-. cbn [with_pc q_pc]. now rewrite pset_same.
    + rewrite ?andb_false_r in Hs. cbn in Hs. injection Hs as <- <-. cbn [with_pc q_pc]. now rewrite pset_same.
    + destruct r; try discriminate. injection Hs as <- <-. cbn [with_pc with_lock q_pc]. now rewrite pset_same.
    + injection Hs as <- <-. destruct (Hnr _ eq_refl eq_refl).
  - intros es0 s0 a s' e Hr Hu HI IH Ha Hs. destruct (qcall_agent _ _ _ _ _ Ha Hs) as (i & p' & ph' & E & Hp & Hph & Hst & _ & _ & _ & Hc).
    assert (Hrc : forall k, In (ERetClose k) es0 -> In (ERetClose k) (app_ev e es0)) by (intros k Hk; destruct e; [right|]; exact Hk).
    intros n Hn. rewrite (Hp n). destruct (Nat.eq_dec n i) as [->|Hni].
    * rewrite pset_same.
      assert (Hl : after_close i es0 = false).
      { destruct (after_close i es0) eqn:El; [|reflexivity]. destruct (IH i El) as [_ Hy]. rewrite E in Hy. discriminate. }
      destruct Hc as [(-> & _)|(_ & [(w & -> & -> & _)|[(w & -> & -> & _)|[(-> & _)|[(-> & _)|[(-> & _)|[(-> & _)|(-> & _)]]]]]])];
      cbn [app_ev after_close] in Hn; rewrite ?Nat.eqb_refl in Hn; try congruence.
      apply close_returned_in in Hn as [k Hk]. split; [eauto|reflexivity].
    * rewrite pset_other by exact Hni. destruct (IH n) as [[k Hk] Hy]; [|eauto].
      destruct Hc as [(-> & _)|(_ & [(w & -> & -> & _)|[(w & -> & -> & _)|[(-> & _)|[(-> & _)|[(-> & _)|[(-> & _)|(-> & _)]]]]]])];
      cbn [app_ev after_close] in Hn; rewrite ?(proj2 (Nat.eqb_neq i n)) in Hn by congruence; exact Hn.
  - intros es0 s0 i p' Hr Hu HI IH Hst n Hn. destruct (IH n Hn) as [[k Hk] Hpc]. split; [eauto|]. unfold with_pc. cbn [q_pc].
    destruct (Nat.eq_dec n i) as [->|Hni]; [rewrite pset_same|rewrite pset_other by exact Hni; exact Hpc].
    stales Hst; rewrite E in Hpc; try discriminate; try reflexivity; try (destruct H' as [->| ->]; reflexivity).
    exfalso. exact (H' (proj1 Hu) (proj2 Hu) k Hk).
Qed.

Theorem after_closed {G} debug es s es2 n r es1 : lrun G debug es s -> close_ok es -> es = es2 ++ ERet n r :: es1 -> after_close n es1 = true -> r = Closed.
Proof.
  intros Hr Hok He Hl. destruct (emitted _ _ _ _ _ _ Hr (proj1 Hok) He I) as (s1 & i & spur & s2 & Hr1 & Hu1 & HI1 & Hs).
  assert (Hok1 : close_ok es1) by (subst es; exact (close_ok_tail (Some (ERet n r)) _ (close_ok_app _ _ Hok))).
  destruct (after_run _ _ _ Hr1 Hok1 n Hl) as [_ Hpc].
  assert (Hx : i = n /\ q_pc s1 i = SRet r).
  { remember (Some (ERet n r)) as e eqn:Hev. clear - Hs Hev. qcases Hs E s1 i; try discriminate; injection Hev as -> ->; auto. }
  destruct Hx as [-> Hx]. rewrite Hx in Hpc. destruct r; try discriminate. reflexivity.
Qed.
