(** The wait queue whose owners only look when they were woken. *)
From Coq Require Import List Bool Arith NArith Lia.
From Verif Require Import WaitCellModel WaitList WaitListSpec WaitListFacts WaitQueueModel WaitQueueSpec WaitQueueFacts WaitQueueSafety WaitQueueWake.
Import ListNotations.

(** Inside a call on its own waiter. *)
Definition own (p : qpc) : bool :=
  match p with
  | SCas _ | SLock _ | SLoad _ | SCasEmpty _ | SCasWaking _ | SNode _ | SSwap _ | SEnq _ | SUnlock _ | SRet _
  | CLoad _ | CLock _ | CLoad2 _ | CUpd _ | DLoad | DLock | DRemove | DEmpty | DUnlock | DFree => true
  | _ => false
  end.
Definition starting (p : qpc) : bool :=
  match p with SCas _ | SLock _ | SLoad _ | SCasEmpty _ | SCasWaking _ | SNode _ | SSwap _ | SEnq _ => true | _ => false end.
Definition sleeping (p : qpc) (ph : phase) : Prop := p = SUnlock Wait \/ p = SRet Wait \/ (own p = false /\ ph = PWaiting).

Record JInv (es : list qevent) (s : qsys) : Prop := {
  J_wait : forall n, In n (waiting es) -> due n es = false /\ sleeping (q_pc s n) (q_phase s n);
  J_carry : forall n k, carries (q_pc s k) = Some n -> due n es = false /\ sleeping (q_pc s n) (q_phase s n) /\ ~ In n (waiting es) /\
     forall k', carries (q_pc s k') = Some n -> k' = k;
  J_start : forall n, starting (q_pc s n) = true -> due n es = false }.

(** Steps that only concern their agent. *)
Lemma jinv_local es s i p' ph' l' st' ls' h' e :
  JInv es s -> waiting (app_ev e es) = waiting es ->
  (carries p' = carries (q_pc s i) \/ carries p' = None) ->
  (forall j, j <> i -> ph' j = q_phase s j) ->
  (forall j, j <> i -> due j (app_ev e es) = due j es) ->
  (sleeping (q_pc s i) (q_phase s i) -> due i es = false -> sleeping p' (ph' i) /\ due i (app_ev e es) = false) ->
  (starting p' = true -> due i (app_ev e es) = false) ->
  JInv (app_ev e es) (mkQ st' l' ls' h' (pset (q_pc s) i p') ph').
Proof.
  intros [J1 J2 J3] Hw Hc Hp Hd Hsl Hst.
  assert (A : forall n, due n es = false -> sleeping (q_pc s n) (q_phase s n) -> due n (app_ev e es) = false /\ sleeping (pset (q_pc s) i p' n) (ph' n)).
  { intros n H1 H2. destruct (Nat.eq_dec n i) as [->|Hn]; [rewrite pset_same; destruct (Hsl H2 H1); auto|]. rewrite pset_other, Hp, Hd by exact Hn. auto. }
  assert (B : forall k n, carries (pset (q_pc s) i p' k) = Some n -> carries (q_pc s k) = Some n).
  { intros k n. destruct (Nat.eq_dec k i) as [->|Hn]; [rewrite pset_same; destruct Hc as [-> | ->]; [auto|discriminate]|now rewrite pset_other by exact Hn]. }
  constructor; cbn [q_pc q_phase].
  - intros n Hn. rewrite Hw in Hn. destruct (J1 n Hn). auto.
  - intros n k Hk. destruct (J2 n k (B _ _ Hk)) as (H1 & H2 & H3 & H4). destruct (A n H1 H2). rewrite Hw. eauto 6.
  - intros n. destruct (Nat.eq_dec n i) as [->|Hn]; [rewrite pset_same; auto|]. rewrite pset_other, Hd by exact Hn. auto.
Qed.

Lemma free_due es s n : JInv es s -> due n es = true -> ~ In n (waiting es) /\ forall k, carries (q_pc s k) <> Some n.
Proof. intros [J1 J2 _] Hd. split; [intros H; destruct (J1 _ H); congruence|intros k H; destruct (J2 _ _ H); congruence]. Qed.

Lemma awake p ph : sleeping p ph -> starting p = false.
Proof. intros [-> |[-> |[H _]]]; try reflexivity. destruct p; try discriminate; reflexivity. Qed.

Lemma jinv_take es s i n q st p' st' l' ls' h' :
  JInv es s -> waiting es = n :: q -> own (q_pc s i) = false -> carries (q_pc s i) = None ->
  own p' = false -> carries p' = Some n ->
  JInv (ESwap i n st :: es) (mkQ st' l' ls' h' (pset (q_pc s) i p') (q_phase s)).
Proof.
  intros [J1 J2 J3] Hq Ho Hc Ho' Hc'.
  assert (A : forall m, sleeping (q_pc s m) (q_phase s m) -> sleeping (pset (q_pc s) i p' m) (q_phase s m)).
  { intros m H. destruct (Nat.eq_dec m i) as [->|Hm]; [rewrite pset_same|now rewrite pset_other by exact Hm].
    destruct H as [H|[H|[_ H]]]; [rewrite H in Ho; discriminate..|]. right. right. auto. }
  constructor; cbn [q_pc q_phase waiting due].
  - intros m Hm. apply without_in in Hm. destruct Hm as [Hm _]. destruct (J1 m Hm). auto.
  - intros m k. destruct (Nat.eq_dec k i) as [->|Hk].
    + rewrite pset_same, Hc'. intros X. injection X as <-. destruct (J1 n) as [H1 H2]; [rewrite Hq; now left|].
      split; [exact H1|]. split; [auto|]. split; [intros Hx; apply without_in in Hx; tauto|].
      intros k'. destruct (Nat.eq_dec k' i) as [->|Hk']; [auto|]. rewrite pset_other by exact Hk'. intros Hx.
      destruct (J2 _ _ Hx) as (_ & _ & Hn & _). destruct Hn. rewrite Hq. now left.
    + rewrite pset_other by exact Hk. intros X. destruct (J2 _ _ X) as (H1 & H2 & H3 & H4). split; [exact H1|]. split; [auto|].
      split; [intros Hx; apply without_in in Hx; tauto|]. intros k'. destruct (Nat.eq_dec k' i) as [->|Hk'].
      * rewrite pset_same, Hc'. intros Hx. injection Hx as <-. destruct H3. rewrite Hq. now left.
      * rewrite pset_other by exact Hk'. apply H4.
  - intros m. destruct (Nat.eq_dec m i) as [->|Hm]; [rewrite pset_same|rewrite pset_other by exact Hm; auto]. intros X. destruct p'; discriminate.
Qed.

Lemma jinv_woke es s i n w p' st' l' ls' h' :
  JInv es s -> carries (q_pc s i) = Some n -> own p' = false -> carries p' = None ->
  JInv (EWoke i n w :: es) (mkQ st' l' ls' h' (pset (q_pc s) i p') (q_phase s)).
Proof.
  intros [J1 J2 J3] Hc Ho' Hc'. assert (Ho : own (q_pc s i) = false) by (destruct (q_pc s i); try discriminate; reflexivity).
  assert (A : forall m, sleeping (q_pc s m) (q_phase s m) -> sleeping (pset (q_pc s) i p' m) (q_phase s m)).
  { intros m H. destruct (Nat.eq_dec m i) as [->|Hm]; [rewrite pset_same|now rewrite pset_other by exact Hm].
    destruct H as [H|[H|[_ H]]]; [rewrite H in Ho; discriminate..|]. right. right. auto. }
  destruct (J2 _ _ Hc) as (C1 & C2 & C3 & C4).
  constructor; cbn [q_pc q_phase waiting due].
  - intros m Hm. destruct (J1 m Hm). destruct (Nat.eqb_spec n m) as [->|Hne]; [contradiction|]. auto.
  - intros m k. destruct (Nat.eq_dec k i) as [->|Hk]; [rewrite pset_same, Hc'; discriminate|]. rewrite pset_other by exact Hk. intros X.
    destruct (J2 _ _ X) as (H1 & H2 & H3 & H4). destruct (Nat.eqb_spec n m) as [->|Hne]; [destruct (Hk (C4 _ X))|].
    split; [exact H1|]. split; [auto|]. split; [exact H3|]. intros k'. destruct (Nat.eq_dec k' i) as [->|Hk'].
    + rewrite pset_same, Hc'. discriminate.
    + rewrite pset_other by exact Hk'. apply H4.
  - intros m X. destruct (Nat.eqb_spec n m) as [->|Hne].
    + pose proof (awake _ _ (A _ C2)). congruence.
    + destruct (Nat.eq_dec m i) as [->|Hm]; [rewrite pset_same in X; destruct p'; discriminate|rewrite pset_other in X by exact Hm; auto].
Qed.

Lemma jinv_enq es s i w st' l' ls' h' : JInv es s -> q_pc s i = SEnq w ->
  JInv (EEnq i w :: es) (mkQ st' l' ls' h' (pset (q_pc s) i (SUnlock Wait)) (q_phase s)).
Proof.
  intros [J1 J2 J3] E. pose proof (J3 i) as Hd. rewrite E in Hd. specialize (Hd eq_refl).
  assert (N : ~ sleeping (q_pc s i) (q_phase s i)) by (rewrite E; intros [H|[H|[H _]]]; discriminate).
  assert (A : forall m, sleeping (q_pc s m) (q_phase s m) -> sleeping (pset (q_pc s) i (SUnlock Wait) m) (q_phase s m)).
  { intros m H. destruct (Nat.eq_dec m i) as [->|Hm]; [contradiction|now rewrite pset_other by exact Hm]. }
  assert (B : forall k m, carries (pset (q_pc s) i (SUnlock Wait) k) = Some m -> carries (q_pc s k) = Some m).
  { intros k m. destruct (Nat.eq_dec k i) as [->|Hn]; [rewrite pset_same; discriminate|now rewrite pset_other by exact Hn]. }
  constructor; cbn [q_pc q_phase waiting due].
  - intros m Hm. apply in_app_or in Hm. destruct Hm as [Hm|[<-|[]]]; [destruct (J1 m Hm); auto|]. split; [exact Hd|]. rewrite pset_same. now left.
  - intros m k X. destruct (J2 _ _ (B _ _ X)) as (H1 & H2 & H3 & H4). split; [exact H1|]. split; [auto|]. split; [|eauto].
    intros Hx. apply in_app_or in Hx. destruct Hx as [Hx|[<-|[]]]; [auto|contradiction].
  - intros m. destruct (Nat.eq_dec m i) as [->|Hm]; [rewrite pset_same; discriminate|rewrite pset_other by exact Hm; auto].
Qed.

Lemma jinv_removed es s i st' l' ls' h' : JInv es s -> q_pc s i = DRemove ->
  JInv (ERemoved i :: es) (mkQ st' l' ls' h' (pset (q_pc s) i DEmpty) (q_phase s)).
Proof.
  intros [J1 J2 J3] E.
  assert (N : ~ sleeping (q_pc s i) (q_phase s i)) by (rewrite E; intros [H|[H|[H _]]]; discriminate).
  assert (A : forall m, sleeping (q_pc s m) (q_phase s m) -> sleeping (pset (q_pc s) i DEmpty m) (q_phase s m)).
  { intros m H. destruct (Nat.eq_dec m i) as [->|Hm]; [contradiction|now rewrite pset_other by exact Hm]. }
  assert (B : forall k m, carries (pset (q_pc s) i DEmpty k) = Some m -> carries (q_pc s k) = Some m).
  { intros k m. destruct (Nat.eq_dec k i) as [->|Hn]; [rewrite pset_same; discriminate|now rewrite pset_other by exact Hn]. }
  constructor; cbn [q_pc q_phase waiting due].
  - intros m Hm. apply without_in in Hm. destruct Hm as [Hm _]. destruct (J1 m Hm); auto.
  - intros m k X. destruct (J2 _ _ (B _ _ X)) as (H1 & H2 & H3 & H4). split; [exact H1|]. split; [auto|]. split; [|eauto].
    intros Hx. apply without_in in Hx. tauto.
  - intros m. destruct (Nat.eq_dec m i) as [->|Hm]; [rewrite pset_same; discriminate|rewrite pset_other by exact Hm; auto].
Qed.

Lemma jinv_step debug es s i spur s' e : QInv es s -> JInv es s -> qstep debug s i spur = Some (s', e) -> e <> Some (EUb i) ->
  JInv (app_ev e es) s'.
Proof.
  intros HI HJ Hs Hub.
  pose proof (J_start _ _ HJ i) as Q3. pose proof (fun A => proj2 (qinv_step debug es s i spur s' e HI Hs Hub) A) as Hfail.
  qcases Hs E s i; unfold with_pc, with_mem, with_phase, with_state, with_lock; cbn [q_pc q_state q_lock q_list q_heap q_phase].
  all: try (destruct Hub; reflexivity).
  all: try solve [match goal with |- JInv (app_ev ?ev _) _ => apply (jinv_local es s i) with (e := ev) end; cbn [app_ev waiting due]; rewrite ?E; rewrite ?Nat.eqb_refl;
    [exact HJ|reflexivity|cbn [carries]; auto|intros; rewrite ?pset_other by assumption; reflexivity
    |intros j Hj; rewrite ?(proj2 (Nat.eqb_neq i j)) by congruence; reflexivity
    |unfold sleeping; cbn [own]; intros [X|[X|[X Y]]] Z; try discriminate; rewrite ?pset_same; try (injection X as ->); try split; auto; try (right; right; split; auto; fail)
    |cbn [starting]; first [discriminate|intros _; apply Q3; reflexivity]]].
  all: try exact HJ.
  all: try (apply jinv_removed; assumption).
  all: try (apply jinv_enq; assumption).
  all: try (apply (jinv_woke es s i); auto; rewrite E; reflexivity).
  all: try match goal with H : l_tail _ = Some ?n |- JInv (app_ev (Some (ESwap _ _ _)) _) _ =>
    destruct (fun A B C D F G => qinv_take es s i n Q_WAKING (TLinks n) HI A B C D F G H) as [_ [q Hq]]; [rewrite ?E; auto..|];
    apply (jinv_take es s i n q); auto; rewrite E; reflexivity end.
  idtac.
  all: try exact HJ.
  all: try (apply jinv_removed; assumption).
  all: try (apply jinv_enq; assumption).
  all: try (apply (jinv_woke es s i); auto; rewrite E; reflexivity).
  all: try match goal with H : l_tail _ = Some ?n |- JInv (app_ev (Some (ESwap _ _ _)) _) _ =>
    destruct (fun A B C D F G => qinv_take es s i n Q_WAKING (TLinks n) HI A B C D F G H) as [_ [q Hq]]; [rewrite ?E; auto..|];
    apply (jinv_take es s i n q); auto; rewrite E; reflexivity end.
  - apply (jinv_local es s i) with (e := Some (ERet i r)); [exact HJ|reflexivity|auto|intros; now rewrite pset_other|..].
    + intros j Hj. simpl. destruct r; rewrite ?(proj2 (Nat.eqb_neq i j)) by congruence; reflexivity.
    + rewrite E, pset_same. intros [X|[X|[X Y]]] Z; try discriminate. injection X as ->. simpl. split; [right; right; auto|exact Z].
    + discriminate.
  - apply (jinv_local es s i) with (e := Some (EUnlink i n o)); [exact HJ|reflexivity|rewrite E; destruct o; auto|reflexivity|reflexivity| |discriminate].
    rewrite E. intros [X|[X|[X Y]]] Z; try discriminate. split; [right; right; auto|exact Z].
Qed.

Lemma patient_tail e es : patient (app_ev e es) -> patient es.
Proof. destruct e as [[]|]; simpl; tauto. Qed.

Lemma jinv_ext es s s' : JInv es s -> (forall n, q_pc s' n = q_pc s n) -> (forall n, q_phase s' n = q_phase s n) -> JInv es s'.
Proof.
  intros [J1 J2 J3] Hp Hh. constructor.
  - intros n. rewrite Hp, Hh. auto.
  - intros n k. rewrite !Hp, Hh. intros X. destruct (J2 _ _ X) as (H1 & H2 & H3 & H4). repeat (split; [assumption|]). intros k'. rewrite Hp. auto.
  - intros n. rewrite Hp. auto.
Qed.

Lemma jinv_call debug es s a s' e : JInv es s -> (forall i spur, a <> QStep i spur) -> qstep_sys debug s a = Some (s', e) -> patient (app_ev e es) ->
  JInv (app_ev e es) s'.
Proof.
  intros HJ Ha Hs Hpat. destruct (qcall_agent _ _ _ _ _ Ha Hs) as (i & p' & ph' & E & Hp & Hph & _ & _ & _ & _ & Hc).
  apply (jinv_ext _ (mkQ (q_state s') (q_lock s') (q_list s') (q_heap s') (pset (q_pc s) i p') (pset (q_phase s) i ph'))); [|auto..].
  assert (HZ : waiting (app_ev e es) = waiting es /\ carries p' = None /\ (forall j, j <> i -> due j (app_ev e es) = due j es) /\ (starting p' = true -> due i (app_ev e es) = false) /\ (q_phase s i = PWaiting -> due i es = false -> own p' = false /\ ph' = PWaiting /\ due i (app_ev e es) = false)).
  { clear Hs Ha Hp Hph. repeat match goal with H : _ \/ _ |- _ => destruct H | H : _ /\ _ |- _ => destruct H | H : exists _, _ |- _ => destruct H end; subst; cbn [app_ev waiting due patient] in *;
    rewrite ?Nat.eqb_refl;
    (split; [reflexivity|]); (split; [reflexivity|]); (split; [intros j Hj; rewrite ?(proj2 (Nat.eqb_neq i j)) by congruence; reflexivity|]); (split; [first [reflexivity|discriminate]|]);
    clear HJ E; intros X Y; try congruence; auto; destruct Hpat as [Hpat _]; rewrite Hpat in Y; discriminate. }
  destruct HZ as (X1 & X2 & X3 & X4 & X5).
  apply (jinv_local es s i); auto.
  - intros j Hj. now rewrite pset_other.
  - rewrite pset_same, E. intros [Y|[Y|[_ Y]]] Z; try discriminate. destruct (X5 Y Z) as (Z1 & Z2 & Z3). split; [right; right; auto|exact Z3].
Qed.

Theorem patient_safe debug es s : qrun debug es s -> patient es -> undisturbed es /\ timeouts_unqueued es /\ no_ub es /\ JInv es s.
Proof.
  intros Hr. induction Hr as [|es s a s' e Hr IH Hs]; intros Hp.
  - split; [exact I|]. split; [exact I|]. split; [intros i []|]. constructor; simpl; try contradiction; discriminate.
  - change (match e with Some x => x :: es | None => es end) with (app_ev e es) in *.
    destruct (IH (patient_tail _ _ Hp)) as (Hd & Ht & Hu & HJ). clear IH.
    destruct (qrun_safe _ _ _ Hr Hd Ht) as (_ & HI & HW & HL & HG).
    assert (Hhalf : forall n, half_taken n es = true -> exists k, carries (q_pc s k) = Some n).
    { intros n Hn. apply HW in Hn. unfold window in Hn. destruct (q_lock s) as [k|]; [|discriminate]. exists k. destruct (q_pc s k); try discriminate; simpl in *; auto. }
    assert (Hd' : undisturbed (app_ev e es)).
    { destruct e as [[]|]; simpl; auto. split; [|exact Hd]. destruct (half_taken i es) eqn:Eh; [|reflexivity]. exfalso.
      destruct (Hhalf _ Eh) as [k Hk]. destruct (J_carry _ _ HJ _ _ Hk) as (_ & Hsl & _).
      destruct a as [j|j w|j w|j|j|j|j|j|j spur]; cbn [qstep_sys] in Hs; try (destruct (idle s j); try discriminate; destruct (q_phase s j); discriminate).
      assert (j = i) by (destruct (qstep_agent _ _ _ _ _ _ Hs) as (X & _); auto). subst j.
      clear - Hs Hsl. unfold qstep, failed, undefined in Hs. destruct Hsl as [E|[E|[E _]]]; [rewrite E in Hs; discriminate..|].
      destruct (q_pc s i) eqn:Ep; try discriminate;
      repeat match type of Hs with
      | context [if ?b then _ else _] => destruct b
      | context [match ?o with Some _ => _ | None => _ end] => destruct o
      | context [let '(_, _) := ?b in _] => destruct b as [[? ?] ?] || destruct b as [? ?]
      end; discriminate. }
    assert (Ht' : timeouts_unqueued (app_ev e es)).
    { destruct e as [[]|]; simpl; auto. simpl in Hp. split; [|exact Ht]. destruct (free_due _ _ _ HJ (proj1 Hp)) as [F1 F2]. split; [exact F1|].
      destruct (half_taken i es) eqn:Eh; [|reflexivity]. destruct (Hhalf _ Eh) as [k Hk]. destruct (F2 _ Hk). }
    pose proof (qrun_step debug es s a s' e Hr Hs) as Hr'. change (qrun debug (app_ev e es) s') in Hr'.
    destruct (qrun_safe _ _ _ Hr' Hd' Ht') as (Hu' & _). split; [exact Hd'|]. split; [exact Ht'|]. split; [exact Hu'|].
    destruct a as [i|i w|i w|i|i|i|i|i|i spur]; try (refine (jinv_call debug es s _ s' e HJ _ Hs Hp); intros ? ?; discriminate).
    apply (jinv_step debug es s i spur); auto. intros ->. apply (Hu' i). now left.
Qed.
