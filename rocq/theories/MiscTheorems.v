(** Theorems about the small components: C12 (error values), C17, C18, C32-C37, C41. *)
From Coq Require Import List Bool Arith NArith Lia.
From Verif Require Import Word QueueSpec History CoreModel CoreArith RingSpec RingFacts SeqModel Demo
  Errors Recycling SpinLock BackoffModel TxCount Timeouts MiscFacts.
Import ListNotations.

(** C12.  The error of a failed by-value send is of the kind reported by the
    underlying call and carries exactly the value that was passed in. *)
Theorem C12_try_send_value : forall T (r : result T (try_send_error unit)) (v : T) e,
  try_send r v = Err e -> ts_into_inner e = v /\ (e = TSFull v \/ e = TSClosed v) /\
    (e = TSFull v <-> r = Err (TSFull tt)) /\ (e = TSClosed v <-> r = Err (TSClosed tt)).
Proof.
  intros T [a|[[]|[]]] v e H; cbn in H; [discriminate| |]; injection H as <-; cbn; repeat split; auto; discriminate.
Qed.
Print Assumptions C12_try_send_value.

Theorem C12_send_value : forall T (r : result T (closed_error unit)) (v : T) e,
  send r v = Err e -> c_into_inner e = v.
Proof. intros T [a|[u]] v e H; cbn in H; [discriminate|]. now injection H as <-. Qed.
Print Assumptions C12_send_value.

Theorem C12_send_timeout_value : forall T (r : result T (send_timeout_error unit)) (v : T) e,
  send_timeout r v = Err e -> st_into_inner e = v /\
    (e = STTimeout v <-> r = Err (STTimeout tt)) /\ (e = STClosed v <-> r = Err (STClosed tt)).
Proof.
  intros T [a|[[]|[]]] v e H; cbn in H; [discriminate| |]; injection H as <-; cbn; repeat split; auto; discriminate.
Qed.
Print Assumptions C12_send_timeout_value.

(** A successful by-value send leaves exactly the value in the slot. *)
Theorem C12_sent_value : forall T (v w : T),
  (forall r, try_send r v = Ok w -> w = v) /\ (forall r, send r v = Ok w -> w = v) /\
  (forall r, send_timeout r v = Ok w -> w = v).
Proof.
  intros T v w. split; [|split]; intros r H; destruct r as [a|e]; cbn in H; try congruence.
  destruct e; discriminate.
Qed.
Print Assumptions C12_sent_value.

Example C12_value_case : try_send (Err (TSFull tt)) 7 = Err (TSFull 7) /\ send (Err (CClosed tt)) 7 = Err (CClosed 7) /\
  send_timeout (Err (STTimeout tt)) 7 = Err (STTimeout 7) /\ try_send (Ok 3) 7 = Ok 7.
Proof. repeat split. Qed.

(** C17.  WithCapacity.  [alloc n] is the capacity std allocates for a request of
    [n] (at least [n]; exactly [n] for Vec and String). *)
Theorem C17_with_capacity : forall A (alloc : N -> N) r (c : coll A),
  (forall n, n <= alloc n)%N ->
  (items (wc_new_element alloc (A := A) r) = [] /\ wc_min r <= capacity (wc_new_element alloc (A := A) r))%N /\
  items (wc_recycle alloc r c) = [] /\
  (capacity c <= wc_max r -> capacity (wc_recycle alloc r c) = capacity c)%N /\
  (wc_max r < capacity c ->
     wc_max r <= capacity (wc_recycle alloc r c) <= alloc (wc_max r) /\ capacity (wc_recycle alloc r c) <= capacity c)%N.
Proof.
  intros A alloc r c Ha. destruct (wc_facts alloc r c Ha) as (H1 & H2 & H3 & H4 & H5).
  split; [auto|]. split; [auto|]. split; [auto|]. intros H. destruct (H5 H) as (H6 & H7 & H8). auto.
Qed.
Print Assumptions C17_with_capacity.

(** For Vec and String the capacity after recycling is exactly the bound. *)
Theorem C17_exact_for_vec : forall A r (c : coll A),
  capacity (wc_recycle (fun n => n) r c) = N.min (capacity c) (wc_max r) /\
  capacity (wc_new_element (fun n => n) (A := A) r) = wc_min r.
Proof.
  intros A r c. destruct (wc_facts (fun n => n) r c (fun n => N.le_refl n)) as (_ & _ & _ & H4 & H5). split; [|reflexivity].
  destruct (N.le_gt_cases (capacity c) (wc_max r)) as [H|H]; [rewrite (H4 H)|destruct (H5 H) as (? & ? & ?)]; lia.
Qed.
Print Assumptions C17_exact_for_vec.

Theorem C17_builders : forall W r n m,
  wc_min (wc_new W) = 0%N /\ wc_max (wc_new W) = (2 ^ W - 1)%N /\
  wc_max (with_max_capacity r n) = n /\ wc_min (with_max_capacity r n) = wc_min r /\
  wc_min (with_min_capacity r n) = n /\ wc_max (with_min_capacity r n) = wc_max r /\
  with_min_capacity (with_max_capacity r n) m = with_max_capacity (with_min_capacity r m) n.
Proof. repeat split. Qed.
Print Assumptions C17_builders.

(** By default nothing that fits in the address space is ever shrunk. *)
Theorem C17_default_keeps_allocations : forall A W (alloc : N -> N) (c : coll A),
  (forall n, n <= alloc n)%N -> (capacity c < 2 ^ W)%N -> capacity (wc_recycle alloc (wc_new W) c) = capacity c.
Proof.
  intros A W alloc c Ha Hc. destruct (wc_facts alloc (wc_new W) c Ha) as (_ & _ & _ & H4 & _).
  apply H4. cbn [wc_new wc_max]. lia.
Qed.
Print Assumptions C17_default_keeps_allocations.

(** The documentation's example: max capacity 8, a 12-byte string. *)
Example C17_case : let r := with_max_capacity (wc_new 64) 8 in
  let s := fold_left (fun c a => std_push c a 0) [1;2;3;4;5;6;7;8;9;10;11;12] (wc_new_element (fun n => n) r) in
  capacity s = 12%N /\ capacity (wc_recycle (fun n => n) r s) = 8%N /\ items (wc_recycle (fun n => n) r s) = [].
Proof. repeat split. Qed.

(** C18.  With DefaultRecycle every element handed out by a push is the default
    value, whatever was left in the slot. *)
Theorem C18_default : forall T W cap (d : T) es i v,
  wf W cap -> ring_history W cap (default_policy d) es -> calm (slack W cap) es -> In (HandOut i v) es -> v = d.
Proof.
  intros T W cap d es i v Hwf Hh HC Hin.
  destruct (handout_kinds W cap Hwf (default_policy d) es i v Hh HC Hin) as [->|[old ->]]; reflexivity.
Qed.
Print Assumptions C18_default.

(** With WithCapacity it has no items, and a capacity within the bounds. *)
Theorem C18_with_capacity : forall A W cap (alloc : N -> N) r es i (v : coll A),
  wf W cap -> (forall n, n <= alloc n)%N ->
  ring_history W cap (wc_policy alloc r) es -> calm (slack W cap) es -> In (HandOut i v) es ->
  items v = [] /\ (capacity v <= N.max (alloc (wc_min r)) (alloc (wc_max r)))%N.
Proof.
  intros A W cap alloc r es i v Hwf Ha Hh HC Hin.
  destruct (handout_kinds W cap Hwf (wc_policy alloc r) es i v Hh HC Hin) as [->|[old ->]].
  - split; [reflexivity|]. cbn. lia.
  - cbn [wc_policy recycle]. destruct (wc_facts alloc r old Ha) as (_ & _ & H3 & H4 & H5). split; [exact H3|].
    pose proof (Ha (wc_max r)).
    destruct (N.le_gt_cases (capacity old) (wc_max r)) as [H6|H6]; [rewrite (H4 H6)|destruct (H5 H6) as (? & ? & ?)]; lia.
Qed.
Print Assumptions C18_with_capacity.

(** A pop by value leaves a new element behind. *)
Theorem C18_pop_leaves_fresh : forall T P (pol : policy T) fuel x x' v,
  tb_op P pol fuel x TPop = Some (x', ROk v) -> exists es, snd x' = Release 0 (new_element pol) :: es.
Proof. intros T P pol. exact (pop_leaves_fresh P pol). Qed.
Print Assumptions C18_pop_leaves_fresh.

Theorem C18_take : forall T (pol : policy T) (v : T), take v pol = (v, new_element pol).
Proof. reflexivity. Qed.
Print Assumptions C18_take.

Definition c18_schedule : list (@action nat) := demo_push 1 10 ++ demo_pop 2 ++ [ADrop 2] ++ demo_push 1 20 ++ demo_push 1 30.
Definition c18_events : list (event nat) :=
  [Commit 1 30; Wrote 1 30; HandOut 1 0; Reserve 1; Invoke 1 OpPush; Commit 1 20; Wrote 1 20; HandOut 1 0; Reserve 1; Invoke 1 OpPush;
   Release 2 10; Take 2 10; Invoke 2 OpPop; Commit 1 10; Wrote 1 10; HandOut 1 0; Reserve 1; Invoke 1 OpPush].
Example C18_case : ring_history 64 2 (default_policy 0) c18_events /\ calm (slack 64 2) c18_events /\
  In (HandOut 1 0) (firstn 3 c18_events) /\ released c18_events 0 = Some 10.
Proof.
  assert (Hh : ring_history 64 2 (default_policy 0) c18_events)
    by (apply (exec_history _ _ _ c18_schedule); vm_compute; reflexivity).
  split; [exact Hh|]. split; [|split; [cbn; tauto|reflexivity]].
  apply (calm_of_few 64 2 _ demo_wf _ Hh). vm_compute. reflexivity.
Qed.

(** C32.  For any number of clones and drops in any order (fewer than 2^W
    senders existing at once): the senders close the channel at most once, only
    when no sender exists any more, and exactly once when all drops are done. *)
Theorem C32_close_at_last_drop : forall W l s,
  tx_run W tx_init l = Some s ->
  (forall l1 l2 s1, l = l1 ++ l2 -> tx_run W tx_init l1 = Some s1 -> (N.of_nat (length (tx_live s1)) < 2 ^ W)%N) ->
  tx_closes s <= 1 /\
  (tx_closes s = 1 \/ tx_closing s <> [] -> tx_live s = []) /\
  (tx_live s = [] -> tx_closing s = [] -> tx_closes s = 1).
Proof. exact tx_closing_facts. Qed.
Print Assumptions C32_close_at_last_drop.

(** Without the bound it is false: 2^W senders (clones leaked with mem::forget,
    possible for StaticSender, which has no Arc count to overflow) make the
    counter wrap, and then dropping one of them closes the channel. *)
Theorem C32_refuted_on_overflow : forall W, (0 < W)%N ->
  exists l s, tx_run W tx_init l = Some s /\ tx_closes s = 1 /\ tx_live s <> [].
Proof. exact tx_wrap. Qed.
Print Assumptions C32_refuted_on_overflow.

Example C32_case : exists s, tx_run 64 tx_init [XClone 0 1; XClone 1 2; XDrop 0; XDrop 2; XClone 1 3; XDrop 1; XDrop 3; XClose 3] = Some s /\
  tx_closes s = 1 /\ tx_live s = [].
Proof. eexists. split; [vm_compute; reflexivity|]. split; reflexivity. Qed.

(** C33 is false: the receiver's is_closed is true while a sender exists (and
    has sent nothing yet). *)
Theorem C33_refuted : forall W, exists s, tx_run W tx_init [] = Some s /\ is_closed s = true /\ tx_live s = [0].
Proof. intros W. eexists. split; [reflexivity|]. split; reflexivity. Qed.
Print Assumptions C33_refuted.

(** What it really says: at most one sender is left. *)
Theorem C33_is_closed_meaning : forall W l s,
  tx_run W tx_init l = Some s ->
  (forall l1 l2 s1, l = l1 ++ l2 -> tx_run W tx_init l1 = Some s1 -> (N.of_nat (length (tx_live s1)) < 2 ^ W)%N) ->
  is_closed s = true <-> length (tx_live s) <= 1.
Proof. exact tx_is_closed. Qed.
Print Assumptions C33_is_closed_meaning.

Example C33_case : exists s, tx_run 64 tx_init [XClone 0 1; XDrop 0] = Some s /\ is_closed s = true /\ tx_live s = [1].
Proof. eexists. split; [vm_compute; reflexivity|]. split; reflexivity. Qed.

(** C34 is false for is_closed of both error types; it is the negation of what
    it should be.  is_full, is_timeout and into_inner are right. *)
Theorem C34_refuted : forall T (v : T),
  ts_is_closed (TSClosed v) = false /\ ts_is_closed (TSFull v) = true /\
  st_is_closed (STClosed v) = false /\ st_is_closed (STTimeout v) = true.
Proof. repeat split. Qed.
Print Assumptions C34_refuted.

Theorem C34_other_predicates : forall T (e : try_send_error T) (f : send_timeout_error T),
  (ts_is_full e = true <-> exists v, e = TSFull v) /\ (st_is_timeout f = true <-> exists v, f = STTimeout v) /\
  (e = TSFull (ts_into_inner e) \/ e = TSClosed (ts_into_inner e)) /\
  (f = STTimeout (st_into_inner f) \/ f = STClosed (st_into_inner f)).
Proof.
  intros T e f. repeat split.
  - destruct e; [eauto|discriminate].
  - now intros [v ->].
  - destruct f; [eauto|discriminate].
  - now intros [v ->].
  - destruct e; auto.
  - destruct f; auto.
Qed.
Print Assumptions C34_other_predicates.

(** C35.  Of all calls of try_split on one static channel, in whatever order they
    execute, the first gets the pair and every other one gets None. *)
Theorem C35_split_once : forall i l, exists rest,
  split_run false (i :: l) = (i, true) :: rest /\ map fst rest = l /\ forall r, In r rest -> snd r = false.
Proof. exact split_once. Qed.
Print Assumptions C35_split_once.

Example C35_case : split_run false [4; 2; 4; 1] = [(4, true); (2, false); (4, false); (1, false)].
Proof. reflexivity. Qed.

(** C36.  recv_ref_timeout: Timeout is reported only when the time has elapsed
    and every poll made found nothing; a message is reported exactly when the
    last poll obtained it (so none is consumed and lost). *)
Theorem C36_recv_timeout : forall T (obs : list (recv_obs T)) begin timeout out w m,
  recv_timeout begin timeout begin 0 obs = Some (out, w, m) ->
  0 < m <= length obs /\
  (forall k, k < m - 1 -> exists w', nth_error obs k = Some (RPending w') /\ w' - begin < timeout) /\
  match out with
  | RMsg v => nth_error obs (m - 1) = Some (RReady v)
  | RClosed => nth_error obs (m - 1) = Some RDisconnected
  | RTimeout => nth_error obs (m - 1) = Some (RPending w) /\ timeout <= w - begin
  end.
Proof.
  intros T obs b t out w m H. destruct (recv_timeout_spec obs _ _ _ _ _ _ _ H) as (H1 & H2 & H3 & H4).
  rewrite Nat.sub_0_r in *. auto.
Qed.
Print Assumptions C36_recv_timeout.

(** send_ref_timeout likewise: a slot is never obtained and then dropped. *)
Theorem C36_send_timeout : forall T (obs : list (send_obs T)) begin timeout out w m,
  send_timeout_loop begin timeout begin 0 obs = Some (out, w, m) ->
  0 < m <= length obs /\
  (forall k, k < m - 1 -> (exists w', nth_error obs k = Some (SWait w') /\ w' - begin < timeout) \/ nth_error obs k = Some (SNotified None)) /\
  match out with
  | SSlot v => nth_error obs (m - 1) = Some (SNotified (Some (Some v)))
  | SClosed => nth_error obs (m - 1) = Some SClosedWait \/ nth_error obs (m - 1) = Some (SNotified (Some None))
  | STimedOut => nth_error obs (m - 1) = Some (SWait w) /\ timeout <= w - begin
  end.
Proof.
  intros T obs b t out w m H. destruct (send_timeout_spec obs _ _ _ _ _ _ _ H) as (H1 & H2 & H3 & H4).
  rewrite Nat.sub_0_r in *. auto.
Qed.
Print Assumptions C36_send_timeout.

(** The upper bound of C36 is false: a wakeup without a message (there are
    several sources of those) just before the deadline makes the call park for
    the whole timeout again; it returns after 2 * timeout - 1 although every
    park returned exactly on time ... *)
Theorem C36_refuted : forall T begin timeout, 1 < timeout ->
  exists obs : list (recv_obs T), parks_ok timeout 0 begin obs /\
    recv_timeout begin timeout begin 0 obs = Some (RTimeout, begin + (2 * timeout - 1), 2).
Proof. intros T b t Ht. eexists. exact (recv_timeout_overrun b t Ht). Qed.
Print Assumptions C36_refuted.

(** ... and that is the worst case for a receive, up to the delay of one park. *)
Theorem C36_recv_at_most_twice : forall T (obs : list (recv_obs T)) begin timeout eps w m,
  0 < timeout -> parks_ok timeout eps begin obs ->
  recv_timeout begin timeout begin 0 obs = Some (RTimeout, w, m) -> w <= begin + (2 * timeout - 1) + eps.
Proof.
  intros T obs b t eps w m Ht Hp H.
  destruct (recv_timeout_latest obs b t eps b 0 w m (Nat.le_refl b) (or_intror eq_refl) Hp H) as [|[-> _]]; [assumption|lia].
Qed.
Print Assumptions C36_recv_at_most_twice.

(** A send that has been notified and still finds the channel full retries
    without ever looking at the clock: the bound fails altogether. *)
Theorem C36_refuted_send : forall T begin timeout k (obs : list (send_obs T)),
  send_timeout_loop begin timeout begin 0 (repeat (SNotified None) k ++ obs) = send_timeout_loop begin timeout begin k obs.
Proof. intros T b t k obs. exact (send_timeout_spins b t b 0 k obs). Qed.
Print Assumptions C36_refuted_send.

Example C36_case : recv_timeout 100 10 100 0 [RPending 104; RReady 7] = Some (RMsg 7, 104, 2) /\
  recv_timeout (T := nat) 100 10 100 0 [RPending 104; RPending 114] = Some (RTimeout, 114, 2) /\
  parks_ok (T := nat) 10 0 100 [RPending 104; RPending 114] /\
  send_timeout_loop 100 10 100 0 [SWait 104; SNotified None; SNotified (Some (Some 5))] = Some (SSlot 5, 104, 3).
Proof. repeat split; lia. Qed.

(** C37.  The spin lock: for every schedule of every number of threads, at most
    one holds the lock; no thread gets it while another holds it; and as soon as
    nobody holds it any thread gets it within three of its own steps. *)
Theorem C37_mutual_exclusion : forall sched s i j,
  lrun lock_init sched = Some s -> l_pc s i = LHeld -> l_pc s j = LHeld -> i = j.
Proof. intros sched s i j H. exact (proj2 (lrun_inv _ _ _ linv_init H) i j). Qed.
Print Assumptions C37_mutual_exclusion.

Theorem C37_blocks : forall sched s i j s',
  lrun lock_init sched = Some s -> l_pc s j = LHeld -> j <> i -> lstep s i = Some s' -> l_pc s' i <> LHeld.
Proof. exact lock_blocks. Qed.
Print Assumptions C37_blocks.

Theorem C37_available_when_free : forall sched s i,
  lrun lock_init sched = Some s -> (forall j, l_pc s j <> LHeld) ->
  exists n s', n <= 3 /\ lrun s (repeat i n) = Some s' /\ l_pc s' i = LHeld /\ l_locked s' = true.
Proof. exact lock_acquire. Qed.
Print Assumptions C37_available_when_free.

Example C37_case : exists s, lrun lock_init [1;2;1;2;2;3;3;1;2;2;3] = Some s /\ l_pc s 2 = LHeld /\ l_pc s 1 = LIdle /\ l_pc s 3 = LLoad.
Proof. eexists. split; [vm_compute; reflexivity|]. repeat split. Qed.

(** C41.  Any sequence of spin and spin_yield calls: the counter never
    overflows, each call executes at most 128 (8 with std or for spin) hints,
    and after three calls done_spinning() is true for ever. *)
Theorem C41_backoff : forall l, exists b,
  brun 0 l = Some b /\ (b <= 7)%N /\ (3 <= length l -> done_spinning b = true) /\
  forall o, (hints b o <= 128)%N /\ (o <> BYield false -> hints b o <= 8)%N.
Proof.
  intros l. destruct (brun_total l 0) as (b & H1 & H2 & _ & H3); [lia|]. exists b. split; [exact H1|]. split; [exact H2|]. split.
  - intros Hl. unfold done_spinning. apply N.leb_le. lia.
  - intros o. exact (proj2 (hints_bound b o H2)).
Qed.
Print Assumptions C41_backoff.

Example C41_case : brun 0 [BSpin; BYield true; BSpin; BYield false; BYield false; BYield false; BYield true; BSpin] = Some 7%N /\
  brun 0 [BSpin; BSpin] = Some 2%N /\ done_spinning 2 = false /\ hints 7 (BYield false) = 128%N.
Proof. repeat split. Qed.
