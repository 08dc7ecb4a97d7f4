{
 "claims": [
  {
   "property": "C01",
   "status": "proved",
   "theorems": [
    "C01_fifo",
    "C01_sent_before_received",
    "C01_wrap_refuted"
   ],
   "note": "All capacities, widths with 4*cap < 2^W, any number of concurrent callers; calls must not be overtaken by a full generation wrap (calm)."
  },
  {
   "property": "C02",
   "status": "proved",
   "theorems": [
    "C02_capacity",
    "C02_full_truthful",
    "C02_wrap_refuted"
   ],
   "note": "All capacities, widths with 4*cap < 2^W, any number of concurrent callers; calls must not be overtaken by a full generation wrap (calm)."
  },
  {
   "property": "C03",
   "status": "proved",
   "theorems": [
    "C03_empty_truthful"
   ],
   "note": "All capacities, widths with 4*cap < 2^W, any number of concurrent callers; calls must not be overtaken by a full generation wrap (calm). On weak memory see C49 (C49_empty_truthful_refuted)."
  },
  {
   "property": "C04",
   "status": "proved",
   "theorems": [
    "C04_exclusive",
    "C04_no_interference",
    "C04_wrap_refuted"
   ],
   "note": "All capacities, widths with 4*cap < 2^W, any number of concurrent callers; calls must not be overtaken by a full generation wrap (calm)."
  },
  {
   "property": "C05",
   "status": "proved",
   "theorems": [
    "C05_element",
    "C05_no_overwrite"
   ],
   "note": "All capacities, widths with 4*cap < 2^W, any number of concurrent callers; calls must not be overtaken by a full generation wrap (calm)."
  },
  {
   "property": "C06",
   "status": "proved",
   "theorems": [
    "C06_no_undefined_behaviour",
    "C06_bounds_and_arithmetic"
   ],
   "note": "All capacities, widths with 4*cap < 2^W, any number of concurrent callers; calls must not be overtaken by a full generation wrap (calm)."
  },
  {
   "property": "C07",
   "status": "partial",
   "theorems": [
    "C07_refuted",
    "C07_checked_constructors"
   ],
   "note": "REFUTED for StaticThingBuf/StaticChannel (CAP = 0 is accepted and the first push is out of bounds); proved for every asserting constructor."
  },
  {
   "property": "C08",
   "status": "proved",
   "theorems": [
    "C08_no_push_after_close",
    "C08_push_result_after_close",
    "C08_closed_truthful",
    "C08_close_result"
   ],
   "note": "All capacities, widths with 4*cap < 2^W, any number of concurrent callers; calls must not be overtaken by a full generation wrap (calm)."
  },
  {
   "property": "C09",
   "status": "proved",
   "theorems": [
    "C09_drained_before_closed",
    "C09_pop_closed_truthful",
    "C09_closed_reported"
   ],
   "note": "All capacities, widths with 4*cap < 2^W, any number of concurrent callers; calls must not be overtaken by a full generation wrap (calm)."
  },
  {
   "property": "C10",
   "status": "proved",
   "theorems": [
    "C10_len_snapshot"
   ],
   "note": "All capacities, widths with 4*cap < 2^W, any number of concurrent callers; calls must not be overtaken by a full generation wrap (calm)."
  },
  {
   "property": "C11",
   "status": "proved",
   "theorems": [
    "C11_sequential",
    "C11_bounded_fifo"
   ],
   "note": "Any operation sequence, any width and capacity, wrap-around included."
  },
  {
   "property": "C12",
   "status": "proved",
   "theorems": [
    "C12_failed_push",
    "C12_failed_call_no_effect",
    "C12_quiet_steps",
    "C12_try_send_value",
    "C12_send_value",
    "C12_send_timeout_value",
    "C12_sent_value"
   ],
   "note": "Ring, ThingBuf layer and the channel wrappers that return values in errors."
  },
  {
   "property": "C13",
   "status": "partial",
   "theorems": [
    "C13_refuted",
    "C13_refuted_push",
    "C13_push_returns",
    "C13_pop_returns",
    "C13_len_returns",
    "C13_push_spins",
    "C13_pop_spins"
   ],
   "note": "REFUTED as stated: a held pop handle makes a push or pop on the same slot spin for ever. The exact condition is proved: solo calls return within 6/14/5 steps iff the slot they need is not occupied."
  },
  {
   "property": "C14",
   "status": "proved",
   "theorems": [
    "C14_drops_exactly_initialised",
    "C14_drops_contents",
    "C14_drops_once"
   ],
   "note": "For queues that saw fewer than span pushes (before the generation wraps; see C16 for after)."
  },
  {
   "property": "C15",
   "status": "partial",
   "theorems": [
    "C15_refuted",
    "C15_wedged",
    "C15_sound_without_panics"
   ],
   "note": "REFUTED: after a panic in new_element teardown drops uninitialised memory and the queue is wedged for ever (both proved). Soundness without panics is proved."
  },
  {
   "property": "C16",
   "status": "partial",
   "theorems": [
    "C16_refuted",
    "C16_refuted_teardown",
    "C05_no_overwrite"
   ],
   "note": "REFUTED on every word width: after span pushes the generation wraps to 0 and an initialised element is overwritten without drop. Before that many pushes it never happens (C05_no_overwrite)."
  },
  {
   "property": "C17",
   "status": "proved",
   "theorems": [
    "C17_with_capacity",
    "C17_exact_for_vec",
    "C17_builders",
    "C17_default_keeps_allocations"
   ],
   "note": "Standard-library collections are modelled by contents plus capacity; reserve/shrink behave as documented."
  },
  {
   "property": "C18",
   "status": "proved",
   "theorems": [
    "C18_default",
    "C18_with_capacity",
    "C18_pop_leaves_fresh",
    "C18_take"
   ],
   "note": ""
  },
  {
   "property": "C19",
   "status": "proved",
   "theorems": [
    "C19_no_data_race",
    "C19_no_assertion_fails"
   ],
   "note": "Small-step model of wait/cell.rs with any number of threads in wait_with, notify and close_tx; every access to the stored waker is a separate step."
  },
  {
   "property": "C20",
   "status": "proved",
   "theorems": [
    "C20_woken",
    "C20_woken_quiet",
    "C20_still_registered",
    "C20_wait_free"
   ],
   "note": "One receiver, any number of notifiers and closers. A sender that has the waker in hand wakes it within a bounded number of its own steps (C20_wait_free)."
  },
  {
   "property": "C21",
   "status": "proved",
   "theorems": [
    "C21_latest_waker",
    "C21_woken_waker",
    "C21_queue_latest",
    "C21_queue_woken"
   ],
   "note": "Receiver cell and senders queue, any number of threads. Queue: As long as no released waiter was touched (C28 says when that is guaranteed)."
  },
  {
   "property": "C22",
   "status": "proved",
   "theorems": [
    "C22_oldest_first",
    "C22_taken_from_front"
   ],
   "note": "Any number of waiters, notifiers, closers and cancellations. As long as no released waiter was touched (C28 says when that is guaranteed)."
  },
  {
   "property": "C23",
   "status": "proved",
   "theorems": [
    "C23_list_is_waiters",
    "C23_enqueue",
    "C23_dequeue",
    "C23_remove"
   ],
   "note": "The list operations on lists of any length, and the list inside the running queue at every moment the lock is free. As long as no released waiter was touched (C28 says when that is guaranteed)."
  },
  {
   "property": "C24",
   "status": "partial",
   "theorems": [
    "C24_refuted",
    "C24_released_unreachable"
   ],
   "note": "REFUTED: a future dropped between the state swap and the unlinking of List::dequeue is freed while still linked. Proved whenever no owner looks at its waiter in that window."
  },
  {
   "property": "C25",
   "status": "partial",
   "theorems": [
    "C25_refuted",
    "C25_race_refuted",
    "C25_race_panics_refuted",
    "C25_apart_stored",
    "C25_apart_result",
    "C25_apart_no_failure"
   ],
   "note": "REFUTED: a future dropped after it was notified takes the wakeup with it; and a cancellation overlapping a notify makes the notify panic (debug) or lose its notification (release). Proved for cancellations of not yet notified futures outside notify calls."
  },
  {
   "property": "C26",
   "status": "proved",
   "theorems": [
    "C26_no_deadlock",
    "C26_no_deadlock_patient",
    "C26_receiver_waits",
    "C26_sender_waits",
    "C26_goes_on",
    "C26_queue_never_stuck",
    "C26_cancel_refuted",
    "C26_two_threads_refuted",
    "C26_two_threads_panics_refuted"
   ],
   "note": "Composition of ring, receiver cell and senders queue, both flavours, any number of senders. Premise memory_ok: no released waiter was touched so far (C28_channel proves it from: no send cancelled or timed out, no spurious polls or unparks; it fails only through findings 3 and 7). The _refuted theorems show that the conditions (no cancelled sends, RecvRefs dropped on one thread) are needed. A last Sender dropped by a panicking thread is C38."
  },
  {
   "property": "C27",
   "status": "partial",
   "theorems": [
    "C27_refuted",
    "C27_panics_refuted",
    "C27_one_notifier"
   ],
   "note": "REFUTED: a notify that read WAITING can wipe out a notification stored meanwhile by another thread (release) or panic (debug). Proved with one notifying thread at a time."
  },
  {
   "property": "C28",
   "status": "partial",
   "theorems": [
    "C28_refuted",
    "C28_no_use_after_release",
    "C28_patient",
    "C28_channel"
   ],
   "note": "REFUTED: a poll between the state swap and the unlinking lets the send return while its waiter is about to be written. Proved for every schedule without such a poll."
  },
  {
   "property": "C29",
   "status": "partial",
   "theorems": [
    "C29_refuted",
    "C29_always_left_behind",
    "C28_no_use_after_release"
   ],
   "note": "REFUTED: a timed send that gives up while queued always leaves its waiter in the list, and the next notify touches the dead frame. Timeouts of waiters already unlinked are harmless (C28_no_use_after_release)."
  },
  {
   "property": "C30",
   "status": "proved",
   "theorems": [
    "C30_woken",
    "C30_nobody_waits",
    "C30_result",
    "C30_late",
    "C30_queue_wakes_all",
    "C30_queue_told",
    "C30_queue_nobody_waits",
    "C30_queue_nobody_starts",
    "C30_queue_late"
   ],
   "note": "Receiver dropped by a thread that is not panicking (else C38). Premise memory_ok: no released waiter was touched so far (C28_channel proves it from: no send cancelled or timed out, no spurious polls or unparks; it fails only through findings 3 and 7)."
  },
  {
   "property": "C31",
   "status": "proved",
   "theorems": [
    "C31_order",
    "C31_drained",
    "C31_forever",
    "C31_never_waits",
    "C31_disconnected",
    "C31_nobody_waits",
    "C31_cell_closed"
   ],
   "note": "Both flavours; the blocking flavour only if the last Sender is not dropped by a panicking thread (else C38)."
  },
  {
   "property": "C32",
   "status": "proved",
   "theorems": [
    "C32_close_at_last_drop",
    "C32_refuted_on_overflow"
   ],
   "note": "Proved for every clone/drop sequence with fewer than 2^W live senders; C32_refuted_on_overflow shows the bound is needed because the count is not guarded."
  },
  {
   "property": "C33",
   "status": "partial",
   "theorems": [
    "C33_refuted",
    "C33_is_closed_meaning"
   ],
   "note": "REFUTED: Receiver::is_closed is true while one sender is still alive; the exact meaning is proved."
  },
  {
   "property": "C34",
   "status": "partial",
   "theorems": [
    "C34_refuted",
    "C34_other_predicates"
   ],
   "note": "REFUTED: is_closed of TrySendError/SendTimeoutError matches the wrong variant; the other predicates are proved."
  },
  {
   "property": "C35",
   "status": "proved",
   "theorems": [
    "C35_split_once"
   ],
   "note": ""
  },
  {
   "property": "C36",
   "status": "partial",
   "theorems": [
    "C36_recv_timeout",
    "C36_send_timeout",
    "C36_refuted",
    "C36_recv_at_most_twice",
    "C36_refuted_send"
   ],
   "note": "REFUTED as a bound on waiting time: a spurious unpark re-parks for the full timeout. What is guaranteed is proved."
  },
  {
   "property": "C37",
   "status": "proved",
   "theorems": [
    "C37_mutual_exclusion",
    "C37_blocks",
    "C37_available_when_free"
   ],
   "note": ""
  },
  {
   "property": "C38",
   "status": "partial",
   "theorems": [
    "C38_receiver_refuted",
    "C38_sender_refuted",
    "C38_try_recv_refuted",
    "C38_async_receiver_partial"
   ],
   "note": "REFUTED: Core::close does nothing while panicking, so a blocking receiver waits forever after the last Sender was dropped by a panicking thread, and a send waits forever in both flavours after the receiver was. Proved for recv of the async flavour."
  },
  {
   "property": "C39",
   "status": "proved",
   "theorems": [
    "C39_per_producer_order",
    "C39_head_of_line"
   ],
   "note": "All capacities, widths with 4*cap < 2^W, any number of concurrent callers; calls must not be overtaken by a full generation wrap (calm)."
  },
  {
   "property": "C40",
   "status": "proved",
   "theorems": [
    "C40_publish_first",
    "C40_woken_receiver",
    "C40_poll_finds",
    "C40_release_first",
    "C40_push_finds",
    "C40_all_announced"
   ],
   "note": ""
  },
  {
   "property": "C41",
   "status": "proved",
   "theorems": [
    "C41_backoff"
   ],
   "note": ""
  },
  {
   "property": "C42",
   "status": "proved",
   "theorems": [
    "C42_none_truthful",
    "C42_pending_checked",
    "C42_cell_closed_truthful"
   ],
   "note": ""
  },
  {
   "property": "C43",
   "status": "proved",
   "theorems": [
    "C43_usable_after_panic",
    "C43_debug_assertion_refuted"
   ],
   "note": "The cell is usable again after any history of panicking registrations. C43_debug_assertion_refuted records that in debug builds the panic can be turned into a failed debug assertion that drops an older waker."
  },
  {
   "property": "C44",
   "status": "partial",
   "theorems": [
    "C44_refuted"
   ],
   "note": "REFUTED: the second registration replaces the first and the first task is never woken, not even by the last sender closing."
  },
  {
   "property": "C45",
   "status": "partial",
   "theorems": [
    "C45_static_channel_refuted",
    "C45_static_channel_leaks",
    "C45_others"
   ],
   "note": "False for StaticChannel, which has no Drop: dropping one panics in debug builds and leaks its elements in release builds (finding 18). Proved for the other three containers under the premises of C14."
  },
  {
   "property": "C46",
   "status": "proved",
   "theorems": [
    "C46_no_data_race",
    "C46_code",
    "C46_store_must_release",
    "C46_pop_must_acquire",
    "C46_push_must_acquire"
   ],
   "note": "Weak-memory model of the ring (views, promise-free; SeqCst treated as AcqRel; len left out), for fewer than slack W cap pushes in total. For each of the three orderings a racing execution with that ordering relaxed."
  },
  {
   "property": "C47",
   "status": "proved",
   "theorems": [
    "C47_fifo",
    "C47_sent_before_received",
    "C47_capacity",
    "C47_per_producer_order",
    "C47_element",
    "C47_no_interference"
   ],
   "note": "As C46."
  },
  {
   "property": "C48",
   "status": "proved",
   "theorems": [
    "C48_publication",
    "C48_reuse"
   ],
   "note": "As C46. Happens-before is tracked by the model: every view contains the set of events that happened before it."
  },
  {
   "property": "C49",
   "status": "proved",
   "theorems": [
    "C49_results",
    "C49_empty",
    "C49_single_consumer",
    "C49_empty_truthful_refuted"
   ],
   "note": "As C46. Unlike under sequential consistency (C03), Empty may be returned although the oldest element is complete throughout the call, if its completion does not happen before the call (refuted by a witness); the statement proved is the one relative to what the caller has seen."
  },
  {
   "property": "C50",
   "status": "proved",
   "theorems": [
    "C50_no_data_race",
    "C50_code",
    "C50_park_must_acquire",
    "C50_unpark_must_release",
    "C50_reset_must_release",
    "C50_notify_must_acquire",
    "C50_unlock_must_release",
    "C50_no_assertion_fails",
    "C50_woken",
    "C50_latest_waker",
    "C50_closed_truthful",
    "C50_wait_free",
    "C50_closed_answer_refuted"
   ],
   "note": "Weak-memory model of the cell (as C46). No assertion fails provided cloning the waker does not panic (see C43). Unlike under sequential consistency (C31) a registration after close_tx may be answered Notified once more, having read an old value (refuted by a witness)."
  },
  {
   "property": "C51",
   "status": "proved",
   "theorems": [
    "C51_woken",
    "C51_woken_by_close",
    "C51_settled",
    "C51_code",
    "C51_parts",
    "C51_register_must_acquire",
    "C51_notify_must_release"
   ],
   "note": "Weak-memory model of ring, cell and sender count together (as C46; tx_wait left out, the receiver is used by one call at a time, panicking Waker::clone left out). C51_parts: everything proved of ring and cell alone (C46-C50) holds of those of a channel."
  },
  {
   "property": "C52",
   "status": "proved",
   "theorems": [
    "C52_end_of_stream",
    "C52_all_received",
    "C52_code",
    "C52_failure_must_acquire",
    "C52_reset_must_acquire"
   ],
   "note": "Weak-memory model of ring, cell and sender count together (as C46; tx_wait left out, the receiver is used by one call at a time, panicking Waker::clone left out). The two necessity witnesses relax the read-modify-writes of the ring as well, which the theorems do not need to synchronise."
  },
  {
   "property": "C53",
   "status": "proved",
   "theorems": [
    "C53_last_sender",
    "C53_code",
    "C53_drop_must_release",
    "C53_fence_needed"
   ],
   "note": "Weak-memory model of ring, cell and sender count together (as C46; tx_wait left out, the receiver is used by one call at a time, panicking Waker::clone left out). C52 turns out not to depend on it."
  },
  {
   "property": "C54",
   "status": "proved",
   "theorems": [
    "C54_no_race",
    "C54_patient",
    "C54_list_is_waiters",
    "C54_oldest_first",
    "C54_latest",
    "C54_told",
    "C54_released_unreachable",
    "C54_never_stuck",
    "C54_hasty_race_refuted"
   ],
   "note": "The last clause (an impatient owner races) is the witness C54_hasty_race_refuted."
  },
  {
   "property": "C55",
   "status": "proved",
   "theorems": [
    "C55_one_notifier",
    "C55_cancelled_refuted",
    "C55_cancelled_panics_refuted"
   ],
   "note": "The loss with cancelled sends is given by witnesses; they use nothing but an old value returned by the Acquire load of notify."
  },
  {
   "property": "C56",
   "status": "proved",
   "theorems": [
    "C56_wakes_all",
    "C56_afterwards",
    "C56_nobody_starts",
    "C56_after",
    "C54_told",
    "C56_late_refuted"
   ],
   "note": "That a sender may be queued after the swap of CLOSED is the witness C56_late_refuted."
  },
  {
   "property": "C57",
   "status": "proved",
   "theorems": [
    "C57_parts",
    "C57_queue_use",
    "C57_notified",
    "C57_room_announced",
    "C57_sender_waits",
    "C57_no_deadlock",
    "C57_code",
    "C57_code_safe",
    "C57_cancelled_refuted",
    "C57_cancelled_panics_refuted"
   ],
   "note": "The last clause (stuck with cancelled sends) is the witness C57_cancelled_refuted; a panicking thread that drops a half of the channel is excluded (C38). Weak-memory counterpart of C26."
  },
  {
   "property": "C58",
   "status": "proved",
   "theorems": [
    "C58_dropped",
    "C58_told",
    "C58_code",
    "C57_queue_use"
   ],
   "note": "Weak-memory counterpart of C30; panicking threads are excluded (C38)."
  },
  {
   "property": "C59",
   "status": "proved",
   "theorems": [
    "C59_mutual_exclusion",
    "C59_no_race",
    "C59_synchronises",
    "C59_code",
    "C59_free",
    "C59_cas_must_acquire",
    "C59_unlock_must_release"
   ],
   "note": "Discharges for the no_std build what WeakQueueModel assumes of the mutex."
  },
  {
   "property": "C60",
   "status": "partial",
   "theorems": [
    "C60_lock_free",
    "C60_bounded_work",
    "C60_refuted",
    "C60_all_stuck_refuted"
   ],
   "note": "False as documented (a suspended push or pop stops the others); proved with the exact exception: the slot at the tail is kept busy, or the slot at the head is held, by a thread that does not run. Spurious failures of compare_exchange_weak are counted as events."
  },
  {
   "property": "C61",
   "status": "proved",
   "theorems": [
    "C61_len",
    "C61_len_exact",
    "C61_len_alone",
    "C61_len_needs_orders"
   ],
   "note": "The SeqCst loads of len are treated as acquire loads, so the theorems hold for weaker code too; the last theorem shows that acquire loads and acquire-release read-modify-writes are needed."
  },
  {
   "property": "C62",
   "status": "partial",
   "theorems": [
    "C62_recv_returns",
    "C62_try_recv_returns",
    "C62_poll_spins",
    "C62_refuted"
   ],
   "note": "False as stated: a poll spins for as long as a sender is suspended between the two atomic operations of notify (finding), and while a RecvRef to the next slot is kept (C13). Proved with exactly these exceptions, with a bound of 41 steps (15 for try_recv, which does not depend on notify)."
  },
  {
   "property": "C63",
   "status": "partial",
   "theorems": [
    "C63_send_returns",
    "C63_send_spins",
    "C63_sleeps_no_more",
    "C63_refuted"
   ],
   "note": "False as stated for the blocking channel: a woken send that finds the queue full again goes round its loop (finding). Proved for every other situation, and for the asynchronous channel without exception, with a bound of 57 steps."
  },
  {
   "property": "C64",
   "status": "proved",
   "theorems": [
    "C64_woken_once",
    "C64_paid_for",
    "C64_receiver",
    "C64_channel"
   ],
   "note": "Closing wakes every waiting sender, so the two counts against notify calls and released slots hold until the receiver is dropped. Ring counters must not have wrapped far enough to be confused (ring_calm, C27)."
  },
  {
   "property": "C65",
   "status": "proved",
   "theorems": [
    "C65_ring",
    "C65_cell",
    "C65_queue",
    "C65_converse_refuted",
    "C65_findings_remain"
   ],
   "note": "Ties the weak-memory models to the sequentially consistent ones: the former exclude no interleaving of the latter, so theorems about all weak executions are not true for want of executions. The whole channel is not covered, only its three parts."
  },
  {
   "property": "C66",
   "status": "proved",
   "theorems": [
    "C66_recv",
    "C66_call"
   ],
   "note": "Nothing is required of the other threads. The receiver is at the start of a pass of its loop; the ring counters must not have wrapped far enough to be confused (ring_calm, C27)."
  },
  {
   "property": "C67",
   "status": "partial",
   "theorems": [
    "C67_send",
    "C67_call",
    "C67_closed",
    "C67_blocked",
    "C67_refuted"
   ],
   "note": "False as stated: an empty open channel does not answer while somebody is between reserving and releasing the slot at the tail, for example while a RecvRef to it is kept. Proved with exactly this exception (C67_blocked: with it the call never returns); Closed needs no condition."
  },
  {
   "property": "C68",
   "status": "partial",
   "theorems": [
    "C68_room",
    "C68_stops",
    "C68_recv_never",
    "C68_send_never",
    "C68_refuted"
   ],
   "note": "The accounting holds. The rest is false: with as many kept RecvRefs as slots nothing is sent or received under any schedule until one is dropped, and a receive never returns, even after all the senders are gone; so collect() on the Iterator hangs (finding). That other receives return is C62 (front_unheld)."
  }
 ]
}