(** How often wakers are woken. *)
From Coq Require Import List Bool Arith NArith Lia.
From Verif Require Import QueueSpec WaitCellModel WaitList WaitListSpec WaitQueueModel WaitQueueSpec WaitQueueFacts WaitQueueWake WakeSpec.
Import ListNotations.

Lemma times_app {A} (p : A -> bool) l1 l2 : times p (l1 ++ l2) = times p l1 + times p l2.
Proof. unfold times. rewrite filter_app, app_length. reflexivity. Qed.
Lemma times_cons {A} (p : A -> bool) e l : times p (e :: l) = (if p e then 1 else 0) + times p l.
Proof. unfold times. cbn [filter]. destruct (p e); reflexivity. Qed.
Lemma times_ev (p : qevent -> bool) e es : times p (app_ev e es) = match e with Some x => if p x then 1 else 0 | None => 0 end + times p es.
Proof. destruct e; [apply times_cons|reflexivity]. Qed.

(** ** Adding up over all threads *)
Definition keys {A} (f : A -> option nat) (es : list A) : list nat := flat_map (fun e => match f e with Some k => [k] | None => [] end) es.
Definition at_key {A} (f : A -> option nat) (k : nat) (e : A) : bool := match f e with Some j => Nat.eqb j k | None => false end.
Lemma keys_count {A} (f : A -> option nat) k es : count_occ Nat.eq_dec (keys f es) k = times (at_key f k) es.
Proof.
  induction es as [|e es IH]; [reflexivity|]. rewrite times_cons. unfold keys in *. cbn [flat_map]. rewrite count_occ_app, IH. unfold at_key.
  destruct (f e) as [j|]; [|reflexivity]. cbn [count_occ]. destruct (Nat.eq_dec j k) as [->|H]; [now rewrite Nat.eqb_refl|]. now rewrite (proj2 (Nat.eqb_neq _ _) H).
Qed.
Lemma keys_length {A} (f : A -> option nat) es : length (keys f es) = times (fun e => match f e with Some _ => true | None => false end) es.
Proof. induction es as [|e es IH]; [reflexivity|]. rewrite times_cons. unfold keys in *. cbn [flat_map]. rewrite app_length, IH. destruct (f e); reflexivity. Qed.
Lemma count_length (a : list nat) : forall b, (forall k, count_occ Nat.eq_dec a k <= count_occ Nat.eq_dec b k) -> length a <= length b.
Proof.
  induction a as [|x a IH]; intros b H; [cbn; lia|].
  assert (Hx : In x b) by (apply (count_occ_In Nat.eq_dec); specialize (H x); cbn in H; destruct (Nat.eq_dec x x); lia || congruence).
  destruct (in_split _ _ Hx) as (b1 & b2 & ->). cbn [length]. rewrite app_length. cbn [length].
  specialize (IH (b1 ++ b2)). rewrite app_length in IH. enough (length a <= length b1 + length b2) by lia. apply IH.
  intros k. specialize (H k). rewrite count_occ_app in *. cbn [count_occ] in H. destruct (Nat.eq_dec x k); lia.
Qed.
Lemma sum_up {A B} (f : A -> option nat) (g : B -> option nat) es es' : (forall k, times (at_key f k) es <= times (at_key g k) es') ->
  times (fun e => match f e with Some _ => true | None => false end) es <= times (fun e => match g e with Some _ => true | None => false end) es'.
Proof. intros H. rewrite <- !keys_length. apply count_length. intros k. rewrite !keys_count. apply H. Qed.

(** ** Taking a waiter and waking it *)
Definition woke_f (n : nat) (e : qevent) : option nat := match e with EWoke k i _ => if Nat.eqb i n then Some k else None | _ => None end.
Definition swap_f (n : nat) (e : qevent) : option nat := match e with ESwap k i _ => if Nat.eqb i n then Some k else None | _ => None end.
Definition to_wake (p : qpc) : option nat :=
  match p with
  | TLinks m | TWake m _ | KLinks m | KWake m _ => Some m
  | TEmpty (Some (m, _)) | TUnlock (Some (m, _)) => Some m
  | _ => None
  end.
Definition owes (n : nat) (p : qpc) : nat := match to_wake p with Some m => if Nat.eqb m n then 1 else 0 | None => 0 end.

Lemma key_woke n k i m w : at_key (woke_f n) k (EWoke i m w) = (Nat.eqb m n && Nat.eqb i k)%bool.
Proof. unfold at_key, woke_f. destruct (Nat.eqb m n); reflexivity. Qed.
Lemma key_swap n k i m st : at_key (swap_f n) k (ESwap i m st) = (Nat.eqb m n && Nat.eqb i k)%bool.
Proof. unfold at_key, swap_f. destruct (Nat.eqb m n); reflexivity. Qed.
Lemma woke_swap debug es s : qrun debug es s -> forall k n, times (at_key (woke_f n) k) es + owes n (q_pc s k) <= times (at_key (swap_f n) k) es.
Proof.
  intros Hr. induction Hr as [|es s a s' e Hr IH Hs]; intros k n; [cbn; lia|].
  change (match e with Some x => x :: es | None => es end) with (app_ev e es). rewrite !times_ev.
  specialize (IH k n).
  destruct a as [i|i w|i w|i|i|i|i|i|i spur].
  1-8: qcalls Hs s i E Ep; cbn [at_key woke_f swap_f plus with_pc with_phase with_mem q_pc];
    try exact IH; (destruct (Nat.eq_dec k i) as [->|Hk]; [rewrite pset_same; rewrite E in IH|rewrite pset_other by exact Hk]; cbn [owes to_wake] in *; lia).
  cbn [qstep_sys] in Hs. qcases Hs E s i; rewrite ?key_woke, ?key_swap; cbn [at_key woke_f swap_f plus with_pc with_phase with_mem with_lock with_state q_pc];
    (destruct (Nat.eq_dec k i) as [->|Hk];
     [rewrite ?pset_same, ?E, ?Nat.eqb_refl; rewrite E in IH|rewrite ?pset_other by exact Hk; try exact IH]).
  all: try (rewrite (proj2 (Nat.eqb_neq i k)) by congruence).
  all: rewrite ?andb_true_r, ?andb_false_r; try exact IH.
  all: unfold owes in *; repeat match goal with o : option waker |- _ => destruct o end; cbn [to_wake option_map plus] in *.
  all: repeat match goal with |- context [if ?b then _ else _] => destruct b eqn:? end.
  all: try lia.
Qed.

(** ** Each wait is ended at most once *)
Definition any_swap (n : nat) (e : qevent) : bool := match e with ESwap _ i _ => Nat.eqb i n | _ => false end.
Lemma swap_enq debug n es : forall s, qrun debug es s -> no_ub es -> times (any_swap n) es + count_occ Nat.eq_dec (waiting es) n <= times (enqueued n) es.
Proof.
  intros s Hr Hu. assert (Hsw : forall es2 k m st es1, es = es2 ++ ESwap k m st :: es1 -> exists q, waiting es1 = m :: q) by (intros es2 k m st es1 He; exact (swap_oldest debug es s es2 k m st es1 Hr Hu He)).
  clear s Hr Hu. induction es as [|e es IH]; [cbn; lia|]. rewrite !times_cons.
  assert (IH' : times (any_swap n) es + count_occ Nat.eq_dec (waiting es) n <= times (enqueued n) es).
  { apply IH. intros es2 k m st es1 ->. apply (Hsw (e :: es2) k m st es1). reflexivity. }
  clear IH.
  assert (Hw : forall m l, count_occ Nat.eq_dec (without m l) n <= count_occ Nat.eq_dec l n).
  { intros m l. unfold without. induction l as [|x l IHl]; [cbn; lia|]. cbn [filter]. destruct (negb (Nat.eqb x m)); cbn [count_occ]; destruct (Nat.eq_dec x n); lia. }
  destruct e; cbn [any_swap enqueued waiting]; try lia.
  - rewrite count_occ_app. cbn [count_occ]. destruct (Nat.eq_dec i n) as [->|H]; [rewrite Nat.eqb_refl; lia|]. rewrite (proj2 (Nat.eqb_neq _ _) H). lia.
  - destruct (Nat.eqb_spec n0 n) as [->|H]; [|specialize (Hw n0 (waiting es)); lia].
    destruct (Hsw [] i n st es eq_refl) as [q Eq].
    assert (H0 : count_occ Nat.eq_dec (without n (waiting es)) n = 0).
    { clear. unfold without. induction (waiting es) as [|x l IHl]; [reflexivity|]. cbn [filter]. destruct (Nat.eqb_spec x n) as [->|Hx]; cbn [negb]; [exact IHl|]. cbn [count_occ]. destruct (Nat.eq_dec x n); congruence. }
    rewrite H0. rewrite Eq in IH'. cbn [count_occ] in IH'. destruct (Nat.eq_dec n n); [lia|congruence].
  - specialize (Hw i (waiting es)). lia.
Qed.

Lemma times_ext {A} (p q : A -> bool) es : (forall e, p e = q e) -> times p es = times q es.
Proof. intros H. induction es as [|e es IH]; [reflexivity|]. now rewrite !times_cons, H, IH. Qed.

Lemma woken_once debug es s n : qrun debug es s -> no_ub es -> times (woken n) es + count_occ Nat.eq_dec (waiting es) n <= times (enqueued n) es.
Proof.
  intros Hr Hu. pose proof (swap_enq debug n es s Hr Hu) as H1.
  assert (H2 : times (woken n) es <= times (any_swap n) es); [|lia].
  rewrite (times_ext (woken n) (fun e => match woke_f n e with Some _ => true | None => false end)) by (intros []; try reflexivity; cbn; destruct (Nat.eqb _ _); reflexivity).
  rewrite (times_ext (any_swap n) (fun e => match swap_f n e with Some _ => true | None => false end)) by (intros []; try reflexivity; cbn; destruct (Nat.eqb _ _); reflexivity).
  apply sum_up. intros k. pose proof (woke_swap debug es s Hr k n). lia.
Qed.

(** ** Notifications *)
Definition given_f (e : qevent) : option nat := match e with EWoke k _ _ => Some k | EStored k => Some k | _ => None end.
Definition call_f (e : qevent) : option nat := match e with ECallNotify k => Some k | _ => None end.
Definition may_give (p : qpc) : nat :=
  match p with TLoad | TCas _ | TLock _ | TSlow _ | TLinks _ | TEmpty _ | TUnlock _ | TWake _ _ => 1 | _ => 0 end.
Definition closing (p : qpc) : bool := match p with KSwap | KLock | KLoop | KLinks _ | KWake _ _ | KUnlock => true | _ => false end.
Lemma give_call debug es s : qrun debug es s -> never_closed es ->
  forall k, closing (q_pc s k) = false /\ times (at_key given_f k) es + may_give (q_pc s k) <= times (at_key call_f k) es.
Proof.
  intros Hr. induction Hr as [|es s a s' e Hr IH Hs]; intros Hnc k; [cbn; auto|].
  change (match e with Some x => x :: es | None => es end) with (app_ev e es) in *. rewrite !times_ev.
  assert (Hnc0 : never_closed es) by (intros j Hj; apply (Hnc j); destruct e; [right|]; exact Hj).
  specialize (IH Hnc0 k).
  destruct a as [i|i w|i w|i|i|i|i|i|i spur].
  1-8: qcalls Hs s i E Ep; cbn [at_key given_f call_f plus with_pc with_phase with_mem q_pc];
    try exact IH; try (exfalso; apply (Hnc i); left; reflexivity);
    (destruct (Nat.eq_dec k i) as [->|Hk]; [rewrite pset_same, ?Nat.eqb_refl; rewrite E in IH|rewrite pset_other by exact Hk; rewrite ?(proj2 (Nat.eqb_neq i k)) by congruence]; cbn [may_give closing plus] in *; intuition lia).
  cbn [qstep_sys] in Hs. qcases Hs E s i; cbn [at_key given_f call_f plus with_pc with_phase with_mem with_lock with_state q_pc];
    (destruct (Nat.eq_dec k i) as [->|Hk];
     [rewrite ?pset_same, ?E, ?Nat.eqb_refl; rewrite E in IH|rewrite ?pset_other by exact Hk; try exact IH]).
  all: try (rewrite (proj2 (Nat.eqb_neq i k)) by congruence); try exact IH.
  all: destruct IH as [IH1 IH2]; try discriminate IH1; cbn [may_give closing plus] in *.
  all: try (split; [reflexivity|lia]).
Qed.

Definition is_waking (s : qsys) : nat := if (q_state s =? Q_WAKING)%N then 1 else 0.
Lemma consumed_stored debug es s : qrun debug es s -> times any_consumed es + is_waking s <= times any_stored es.
Proof.
  intros Hr. induction Hr as [|es s a s' e Hr IH Hs]; [cbn; auto|].
  change (match e with Some x => x :: es | None => es end) with (app_ev e es) in *. rewrite !times_ev.
  destruct a as [i|i w|i w|i|i|i|i|i|i spur].
  1-8: qcalls Hs s i E Ep; cbn [any_consumed any_stored plus]; exact IH.
  cbn [qstep_sys] in Hs. unfold is_waking in *.
  qcases Hs E s i; cbn [any_consumed any_stored plus with_pc with_phase with_mem with_lock with_state q_state] in *; try exact IH.
  all: repeat match goal with
        | H : (_ && _)%bool = true |- _ => apply andb_true_iff in H; destruct H
        | H : (q_state _ =? _)%N = true |- _ => apply N.eqb_eq in H; rewrite H in *
        end.
  all: try (match type of IH with context [if ?b then _ else _] => destruct b eqn:? end); cbn in IH |- *; try lia; try discriminate.
  all: repeat match goal with H : (_ =? _)%N = false |- context [if ?b then _ else _] => progress rewrite H end; lia.
Qed.

Lemma paid_for debug es s : qrun debug es s -> never_closed es ->
  times any_woken es + times any_consumed es <= times notify_called es.
Proof.
  intros Hr Hnc. pose proof (consumed_stored debug es s Hr) as H1.
  assert (H2 : times any_woken es + times any_stored es <= times notify_called es); [|lia].
  rewrite (times_ext notify_called (fun e => match call_f e with Some _ => true | None => false end)) by (intros []; reflexivity).
  apply (Nat.le_trans _ (times (fun e => match given_f e with Some _ => true | None => false end) es)).
  - clear. induction es as [|e es IH]; [cbn; lia|]. rewrite !times_cons. destruct e; cbn [any_woken any_stored given_f]; lia.
  - apply sum_up. intros k. pose proof (proj2 (give_call debug es s Hr Hnc k)). lia.
Qed.

(** ** The receiver's cell *)
Definition held (p : wpc) : list waker :=
  let o := fun x : option waker => match x with Some v => [v] | None => [] end in
  match p with
  | WCas1 w _ | WSelf w _ | WReplace w _ => [w]
  | WCas2 _ prev _ | WTake _ _ prev _ => o prev
  | WAnd _ _ prev mine _ | WPrev _ _ prev mine _ => o prev ++ o mine
  | WMine _ _ mine _ => o mine
  | NAnd ow => o ow
  | NWake w => [w]
  | _ => []
  end.
Definition cnt (w : waker) (l : list waker) : nat := count_occ Nat.eq_dec l w.
Definition in_cell (c : cell) : list waker := match w_waiter c with Some v => [v] | None => [] end.
(** Wakers held by the threads below [n]. *)
Fixpoint held_below (w : waker) (pc : nat -> wpc) (n : nat) : nat :=
  match n with 0 => 0 | S m => cnt w (held (pc m)) + held_below w pc m end.

Lemma below_same w pc i p n : n <= i -> held_below w (wset pc i p) n = held_below w pc n.
Proof. induction n as [|n IH]; intros H; [reflexivity|]. cbn [held_below]. rewrite IH by lia. unfold wset. now rewrite (proj2 (Nat.eqb_neq n i)) by lia. Qed.
Lemma below_set w pc i p n : i < n -> held_below w (wset pc i p) n + cnt w (held (pc i)) = held_below w pc n + cnt w (held p).
Proof.
  induction n as [|n IH]; intros H; [lia|]. cbn [held_below]. destruct (Nat.eq_dec i n) as [->|Hn].
  - rewrite below_same by lia. unfold wset. rewrite Nat.eqb_refl. lia.
  - specialize (IH ltac:(lia)). unfold wset at 1. rewrite (proj2 (Nat.eqb_neq n i)) by lia. lia.
Qed.
Lemma below_idle w pc m n : m <= n -> (forall j, m <= j -> pc j = WIdle) -> held_below w pc n = held_below w pc m.
Proof. intros Hle Hi. induction n as [|n IH]; [now replace m with 0 by lia|]. destruct (Nat.eq_dec m (S n)) as [->|Hm]; [reflexivity|]. cbn [held_below]. rewrite (Hi n) by lia. cbn. apply IH. lia. Qed.

(** One step creates no waker. *)
Lemma wstep_held debug w c i p c' p' e : wstep debug c i p = (c', p', e) ->
  match e with Some x => if waker_woken w x then 1 else 0 | None => 0 end + cnt w (in_cell c') + cnt w (held p') <= cnt w (in_cell c) + cnt w (held p).
Proof.
  intros H. unfold wstep in H. destruct p;
    repeat match type of H with
    | context [if ?b then _ else _] => destruct b eqn:?
    | context [match ?o with Some _ => _ | None => _ end] => destruct o eqn:?
    end; injection H as <- <- <-; unfold in_cell, cnt, waker_woken; cbn [held w_waiter];
    repeat match goal with |- context [match ?o with Some _ => _ | None => _ end] => destruct o eqn:? end;
    repeat match goal with H : ?x = Some _ |- _ => rewrite H in * | H : ?x = None |- _ => rewrite H in * end;
    cbn [app count_occ];
    repeat match goal with |- context [Nat.eq_dec ?a ?b] => destruct (Nat.eq_dec a b) as [?E|?E] end;
    repeat match goal with |- context [Nat.eqb ?a ?b] => destruct (Nat.eqb_spec a b) end; try lia; try congruence.
Qed.

Lemma cell_paid debug es s : wrun debug es s -> exists n, (forall j, n <= j -> ws_pc s j = WIdle) /\
  forall w, times (waker_woken w) es + cnt w (in_cell (ws_cell s)) + held_below w (ws_pc s) n <= times (waker_passed w) es.
Proof.
  intros Hr. induction Hr as [|es s a s' e Hr IH Hs]; [exists 0; split; [reflexivity|intros w; cbn; lia]|].
  destruct IH as (n & Hi & Hb).
  assert (Hgo : forall i p' c', (forall w, match e with Some x => if waker_woken w x then 1 else 0 | None => 0 end + cnt w (in_cell c') + cnt w (held p')
                <= cnt w (in_cell (ws_cell s)) + cnt w (held (ws_pc s i)) + match e with Some x => if waker_passed w x then 1 else 0 | None => 0 end) ->
                s' = mkW c' (wset (ws_pc s) i p') ->
    exists n, (forall j, n <= j -> ws_pc s' j = WIdle) /\
      forall w, times (waker_woken w) (match e with Some x => x :: es | None => es end) + cnt w (in_cell (ws_cell s')) + held_below w (ws_pc s') n
        <= times (waker_passed w) (match e with Some x => x :: es | None => es end)).
  { intros i p' c' H ->. exists (Nat.max n (S i)). cbn [ws_pc ws_cell]. split.
    - intros j Hj. unfold wset. rewrite (proj2 (Nat.eqb_neq j i)) by lia. apply Hi. lia.
    - intros w. specialize (H w). specialize (Hb w). pose proof (below_set w (ws_pc s) i p' (Nat.max n (S i)) ltac:(lia)) as B1.
      rewrite (below_idle w (ws_pc s) n (Nat.max n (S i)) ltac:(lia) Hi) in B1.
      destruct e; rewrite ?times_cons; lia. }
  destruct a as [i w pan|i c|i]; cbn [wstep_sys] in Hs.
  - destruct (ws_pc s i) eqn:E; try discriminate. injection Hs as <- <-. apply (Hgo i (WCas1 w pan) (ws_cell s)); [|reflexivity].
    intros v. rewrite E. cbn [waker_woken waker_passed held cnt]. unfold cnt. cbn [count_occ]. destruct (Nat.eq_dec w v) as [->|H]; [rewrite Nat.eqb_refl; lia|lia].
  - destruct (ws_pc s i) eqn:E; try discriminate. injection Hs as <- <-. apply (Hgo i (NOr c) (ws_cell s)); [|reflexivity].
    intros v. rewrite E. cbn. lia.
  - destruct (ws_pc s i) eqn:E; try discriminate;
      (destruct (wstep debug (ws_cell s) i (ws_pc s i)) as [[c' p'] e'] eqn:Hw; rewrite E in Hw; rewrite Hw in Hs; injection Hs as <- <-;
       apply (Hgo i p' c'); [|reflexivity]; intros v; pose proof (wstep_held debug v _ _ _ _ _ _ Hw); rewrite E; lia).
Qed.
Lemma cell_woken debug es s w : wrun debug es s -> times (waker_woken w) es <= times (waker_passed w) es.
Proof. intros Hr. destruct (cell_paid debug es s Hr) as (n & _ & H). specialize (H w). lia. Qed.
