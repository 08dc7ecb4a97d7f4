{"id": "C01", "title": "MPMC FIFO: no loss, no duplication, no reordering", "statement": "For any number of threads calling push/push_ref/pop/pop_ref (or send/recv) concurrently on one queue, the n-th element ever dequeued is exactly the element written through the n-th reservation ever made by a successful push, with the value that was in the slot when its Ref was dropped. No element is dequeued twice, skipped, or dequeued before its push completed.", "quantifier": "every capacity >= 1, every number of threads, every interleaving of atomic steps, every element type and recycling policy, every finite history (up to the counter-width bound stated in the theorem)", "why_tests_cant": "The set of interleavings is infinite; loom explores a handful of threads and operations, and the repository's `linearizable` test is #[ignore]d because it does not finish.", "anchors": ["src/lib.rs: Core::push_ref, Core::pop_ref, Ref::drop, Core::next, Core::idx_gen", "src/thingbuf.rs: ThingBuf::{push,push_ref,pop,pop_ref}"]}
{"id": "C02", "title": "Capacity is never exceeded and Full is truthful", "statement": "The number of elements reserved or stored and not yet dequeued never exceeds the capacity given at construction; and whenever push/try_send reports Full, there is an instant during that very call at which the queue held exactly `capacity` such elements and was not closed.", "quantifier": "every capacity, thread count, schedule and history", "why_tests_cant": "Full is decided from two non-atomic reads of counters owned by other threads; a test sees a few schedules only.", "anchors": ["src/lib.rs: Core::push_ref (Full branch)", "src/thingbuf.rs: ThingBuf::push_ref", "src/mpsc.rs: try_send_ref"]}
{"id": "C03", "title": "Empty/None is truthful", "statement": "Whenever pop/try_recv reports that nothing is available, there is an instant during that call at which the oldest not-yet-dequeued position held no completed element: the queue was empty, or the push of the oldest element had not completed.", "quantifier": "every capacity, thread count, schedule and history", "why_tests_cant": "The bounded-spin exit returns Empty from stale reads; only a proof covers every placement of the concurrent writer.", "anchors": ["src/lib.rs: Core::pop_ref (Empty branches, Backoff::done_spinning)"]}
{"id": "C04", "title": "Exclusive access to an element", "statement": "At no moment do two live Ref/SendRef/RecvRef handles (nor a handle and an in-progress initialisation or recycling) designate the same slot: each grants exclusive access to its element until dropped.", "quantifier": "every pair of threads, every reachable state of every schedule", "why_tests_cant": "A data race needs one specific interleaving; tests cannot enumerate them.", "anchors": ["src/lib.rs: Ref, Core::push_ref, Core::pop_ref, unsafe impl Send/Sync for Ref, Slot"]}
{"id": "C05", "title": "Elements handed out are initialised, new on first use and recycled afterwards", "statement": "The element a push reservation hands out is `new_element()` the first time a slot is used and `recycle` applied to whatever was left in that slot afterwards; no Ref ever exposes uninitialised memory and no initialised element is overwritten without being recycled, as long as the position counter has not wrapped.", "quantifier": "every capacity, schedule and history, every recycling policy", "why_tests_cant": "Initialisation state is implied by a generation number shared by all threads; the claim ranges over all laps of the ring.", "anchors": ["src/lib.rs: Core::push_ref (gen == 0 branch), Ref::deref", "src/recycling.rs: Recycle"]}
{"id": "C06", "title": "Slot indexing is in bounds and counter arithmetic does not overflow", "statement": "For every capacity of at least one that fits the word size, every unchecked slot access made by push, pop or teardown is within the slot array, and none of the plain (+, -) additions and subtractions on the counters overflows or underflows.", "quantifier": "every capacity >= 1, every word width, every reachable state", "why_tests_cant": "get_unchecked has no run-time check in release builds; boundary capacities (2^k-1, 2^k, 1) and late laps are not reached by tests.", "anchors": ["src/lib.rs: Core::new, idx_gen, next, push_ref, pop_ref, len, drop_slots"]}
{"id": "C07", "title": "A zero-capacity queue cannot cause out-of-bounds access", "statement": "Safe code constructing a queue or channel with capacity zero cannot make the library touch memory outside the (empty) slot array: construction must be rejected, as ThingBuf::new and channel() do.", "quantifier": "every constructor: ThingBuf, channel(), StaticThingBuf, StaticChannel", "why_tests_cant": "Capacity zero is a degenerate instance nobody tests; the unchecked access is undefined behaviour and need not crash.", "anchors": ["src/thingbuf.rs: ThingBuf::with_recycle", "src/static_thingbuf.rs: StaticThingBuf::with_recycle", "src/mpsc/async_impl.rs: StaticChannel::new", "src/lib.rs: Core::push_ref"]}
{"id": "C08", "title": "Closing is permanent and atomic with respect to sending", "statement": "Once the channel has been closed, no send/try_send reservation ever succeeds again; each later attempt reports Closed. A reservation that succeeded did so before the close.", "quantifier": "every schedule racing a send with the drop of the receiver or of the last sender", "why_tests_cant": "The race window between reading the counter and the compare-exchange is a single instruction.", "anchors": ["src/lib.rs: Core::close, Core::push_ref", "src/mpsc.rs: close_rx", "src/mpsc/async_impl.rs: Drop for Receiver"]}
{"id": "C09", "title": "Messages sent before the close are all delivered before Closed is reported", "statement": "pop/try_recv report Closed only when the channel is closed and every position ever reserved has been dequeued; messages completed before the close are dequeued first, in order.", "quantifier": "every schedule, history and capacity", "why_tests_cant": "Needs all placements of the close among outstanding sends.", "anchors": ["src/lib.rs: Core::pop_ref (Closed branch)", "src/mpsc.rs: poll_recv_ref"]}
{"id": "C10", "title": "len, remaining and is_empty are consistent snapshots", "statement": "The value returned by len() equals the number of reserved-or-stored elements at some instant during the call, so it is at most capacity; remaining() is capacity minus that value and never underflows; is_empty() holds iff that value is zero.", "quantifier": "every schedule of concurrent pushes and pops around the call", "why_tests_cant": "Three separate loads; torn snapshots are schedule dependent.", "anchors": ["src/lib.rs: Core::len", "src/thingbuf.rs: len, remaining, is_empty", "src/static_thingbuf.rs"]}
{"id": "C11", "title": "A ThingBuf used by one thread is exactly a bounded FIFO, even when the counters wrap", "statement": "For every sequence of push/pop/push_with/pop_with/len/remaining/is_empty calls by one thread, each call returns exactly what a bounded list queue would return (Ok iff fewer than capacity elements, the pushed values in order, None iff empty), for any number of operations, including histories in which the position counters wrap around the machine word.", "quantifier": "every operation sequence of any length, every capacity, every word width with 4*capacity < 2^width, every recycling policy", "why_tests_cant": "Wrap-around needs 2^62 operations on 64-bit targets; the index arithmetic has a special case per lap.", "anchors": ["src/thingbuf.rs: ThingBuf", "src/static_thingbuf.rs: StaticThingBuf", "src/lib.rs: Core"]}
{"id": "C12", "title": "Failed pushes and sends give the value back unchanged and have no effect", "statement": "When push, try_send, send or send_timeout fails, the error contains exactly the value passed in, and the queue contents are unchanged; into_inner returns it.", "quantifier": "every value, every queue state", "why_tests_cant": "Universally quantified over values and states.", "anchors": ["src/thingbuf.rs: ThingBuf::push", "src/mpsc.rs: try_send", "src/mpsc/errors.rs: with_value, into_inner", "src/lib.rs: Full::into_inner"]}
{"id": "C13", "title": "Non-blocking calls return: bounded steps when no handle is outstanding", "statement": "push, pop, try_send and try_recv never wait: run without interference they return after a bounded number of their own steps, whatever handles other code currently holds.", "quantifier": "every reachable state; every set of outstanding Ref handles", "why_tests_cant": "Non-termination cannot be observed by a terminating test; the bad states need a held handle at one exact ring position.", "anchors": ["src/lib.rs: Core::push_ref, Core::pop_ref loops", "src/mpsc/async_impl.rs: try_send_ref docs ('it will never wait')", "README.md ('Is it lock-free? Extremely.')"]}
{"id": "C14", "title": "Dropping the queue drops each initialised element exactly once", "statement": "When a queue is dropped with no handle outstanding, destructors run for exactly the slots that hold an initialised element, once each; uninitialised slots are never dropped and nothing is leaked.", "quantifier": "every history before the drop, every capacity, within one wrap of the position counter", "why_tests_cant": "Which slots are initialised depends on the whole history; leak and double-drop do not crash deterministically.", "anchors": ["src/lib.rs: Core::drop_slots", "src/thingbuf.rs: Drop for ThingBuf", "src/mpsc/async_impl.rs: Drop for Inner"]}
{"id": "C15", "title": "A panicking element constructor does not make teardown unsound", "statement": "If the recycling policy's new_element panics during a push, a later drop of the queue still only drops initialised elements, and other threads can still use the queue.", "quantifier": "every queue state at which user code may panic", "why_tests_cant": "Requires a panic at one exact point followed by teardown; the bad outcome is undefined behaviour.", "anchors": ["src/lib.rs: Core::push_ref (recycle.new_element after the CAS), Core::drop_slots"]}
{"id": "C16", "title": "No element is leaked when the position counter wraps", "statement": "Over arbitrarily long use, every element the queue creates is eventually recycled, handed out, or dropped; none is overwritten in place without its destructor running, even after the generation counter wraps to zero.", "quantifier": "histories of any length, every word width", "why_tests_cant": "About 2^30 pushes on a 32-bit target and 2^62 on a 64-bit one.", "anchors": ["src/lib.rs: Core::push_ref (ptr.write when gen == 0), Core::drop_slots (gen > 0 test), Core::next (wrapping_add)"]}
{"id": "C17", "title": "WithCapacity policy bounds", "statement": "With the WithCapacity policy, new elements are empty with capacity at least min_capacity; recycling leaves the element empty, its capacity reduced to max_capacity when it exceeded that and unchanged otherwise; the defaults are min 0 and max usize::MAX; setting one bound does not disturb the other.", "quantifier": "every configuration, every element contents and capacity", "why_tests_cant": "Quantifies over all capacities and contents.", "anchors": ["src/recycling.rs: WithCapacity, impl Recycle<Vec<T>>"]}
{"id": "C18", "title": "Recycled contents never leak into the next message", "statement": "A value obtained from push_ref/send_ref carries nothing from the slot's previous use beyond what the recycling policy keeps: with DefaultRecycle it equals the default value, with WithCapacity it has no items; pop/recv by value leaves a fresh new_element behind in the slot.", "quantifier": "every history, capacity, and previous contents", "why_tests_cant": "Quantifies over all earlier contents and all laps.", "anchors": ["src/recycling.rs: DefaultRecycle::recycle, take", "src/lib.rs: Core::push_ref", "src/thingbuf.rs: pop"]}
{"id": "C19", "title": "Receiver waker cell has no data race", "statement": "The waker slot used to wake the receiver is accessed by at most one thread at a time, for any number of concurrent senders notifying, the last sender closing, and any number of concurrent receive polls.", "quantifier": "every interleaving of wait_with, notify and close_tx calls", "why_tests_cant": "Unsynchronised access is undefined behaviour visible only under specific schedules.", "anchors": ["src/wait/cell.rs: WaitCell::{wait_with, notify2}"]}
{"id": "C20", "title": "A receiver that registered to be woken is woken", "statement": "After a receive poll returned Pending (or the blocking receiver is about to park), any later completed send or close of the last sender leads to a wakeup of the most recently registered waker: it is never left registered in the cell after the notify, and never silently dropped.", "quantifier": "every interleaving of one receiver with any number of notifiers and the closer", "why_tests_cant": "Lost wakeups are schedule dependent and show as hangs.", "anchors": ["src/wait/cell.rs: WaitCell", "src/mpsc.rs: NotifyRx, poll_recv_ref"]}
{"id": "C21", "title": "The most recently passed waker is the one woken", "statement": "When a receive is polled several times with different wakers, or a waiting send future is re-polled with a new waker, only the latest waker is the one stored and subsequently woken.", "quantifier": "every sequence of polls and wakers", "why_tests_cant": "Quantifies over all poll histories.", "anchors": ["src/wait/cell.rs: wait_with (replace)", "src/wait/queue.rs: continue_wait_slow", "src/mpsc/async_impl.rs: poll_recv docs"]}
{"id": "C22", "title": "Waiting senders are woken in the order they started waiting", "statement": "Among senders waiting for capacity, each completed receive wakes the one that has waited longest; later waiters are never woken before earlier ones that are still waiting.", "quantifier": "every number of waiters, every sequence of waits, wakeups and cancellations", "why_tests_cant": "Quantifies over all queue lengths and operation orders.", "anchors": ["src/wait/queue.rs: List::{enqueue,dequeue,remove}, WaitQueue::notify"]}
{"id": "C23", "title": "Waiter list stays well linked under enqueue, wake and cancellation", "statement": "The intrusive doubly linked list of waiters always represents a duplicate-free sequence of waiters: enqueueing adds one at the back, waking removes the oldest, cancelling removes exactly that waiter from any position (first, middle, last, only, or already removed) and leaves all others linked in order.", "quantifier": "every list length and every position of the removed node", "why_tests_cant": "Pointer-surgery cases multiply with list shape; tests have three nodes.", "anchors": ["src/wait/queue.rs: List::{enqueue,dequeue,remove,is_empty}"]}
{"id": "C24", "title": "A dropped (cancelled) send future is never referenced again", "statement": "After a send future is dropped at any point of its life, the wait queue holds no pointer to it.", "quantifier": "every point at which the future can be dropped, every schedule of concurrent receivers", "why_tests_cant": "A dangling pointer is only observable as memory corruption.", "anchors": ["src/mpsc/async_impl.rs: PinnedDrop for SendRefFuture", "src/wait/queue.rs: Waiter::remove"]}
{"id": "C25", "title": "Cancelling a send never strands another waiting sender", "statement": "If a waiting send future is dropped, the wakeup it may already have been given is passed on, so that another sender waiting for the same free slot is woken.", "quantifier": "every schedule of a cancellation racing with a receive", "why_tests_cant": "The race is between two threads and ends in a silent hang.", "anchors": ["src/mpsc/async_impl.rs: PinnedDrop for SendRefFuture", "src/wait/queue.rs: notify, notify_slow, Waiter::remove"]}
{"id": "C26", "title": "No deadlock between waiting senders and the receiver", "statement": "With one receiver used from one thread, no cancelled and no timed-out sends, the channel never reaches a state in which everybody has stopped while a sender waits for capacity and the receiver waits for messages; a receiver waits only if no completed message is available and senders remain; a sender waits only if the channel is not empty and the receiver is not waiting.", "quantifier": "every capacity, any number of senders, both the blocking and the async flavour, every schedule", "why_tests_cant": "Deadlock freedom ranges over all schedules of three synchronisation objects.", "anchors": ["src/mpsc.rs: ChannelCore, poll_recv_ref", "src/mpsc/blocking.rs: send_ref, recv_ref", "src/mpsc/async_impl.rs: SendRefFuture::poll"]}
{"id": "C27", "title": "Handles dropped concurrently by several threads still wake waiting senders", "statement": "RecvRef handles may be moved to other threads and dropped concurrently; each drop frees a slot and its wakeup is never lost.", "quantifier": "every interleaving of two or more RecvRef drops", "why_tests_cant": "Requires two notifications to overlap in one window.", "anchors": ["src/wait/queue.rs: notify, notify_slow (uses a stale state)", "src/mpsc.rs: NotifyTx"]}
{"id": "C28", "title": "Waiter memory is never used after the waiting call has returned", "statement": "The thread that wakes a sender never touches the waiter after the waiting send may have returned and released it.", "quantifier": "every schedule, including spurious wakeups / extra polls of the waiting side", "why_tests_cant": "Use-after-free in a window of a few instructions.", "anchors": ["src/wait/queue.rs: List::dequeue (state swap before with_node), continue_wait fast path"]}
{"id": "C29", "title": "A timed-out send leaves nothing behind", "statement": "When send_timeout/send_ref_timeout returns Timeout, the calling thread is no longer in the wait queue: no later receive touches its (dead) waiter, and no wakeup is spent on it.", "quantifier": "every timeout value and every schedule", "why_tests_cant": "The consequence is memory corruption or a hang in some later unrelated call.", "anchors": ["src/mpsc/blocking.rs: send_ref_timeout", "src/wait/queue.rs: Waiter::remove"]}
{"id": "C30", "title": "Dropping the receiver wakes every waiting sender with Closed", "statement": "When the receiver is dropped, each sender currently waiting is woken and its send returns Closed, and no sender starts waiting afterwards.", "quantifier": "every number of waiting senders, every schedule of senders racing with the drop", "why_tests_cant": "Ranges over queue lengths and race placements.", "anchors": ["src/mpsc.rs: close_rx", "src/wait/queue.rs: WaitQueue::close, start_wait_slow"]}
{"id": "C31", "title": "After the last sender is dropped, recv drains and then returns None forever", "statement": "Once all senders are dropped, recv/poll_recv yields every remaining message in order and then None, on this and all later calls; it never waits.", "quantifier": "every number of remaining messages, every schedule of the last drop racing with recv", "why_tests_cant": "Ranges over all interleavings of close with poll.", "anchors": ["src/mpsc.rs: poll_recv_ref", "src/mpsc/async_impl.rs: Drop for Sender", "src/mpsc/blocking.rs: Drop for Sender"]}
{"id": "C32", "title": "The channel closes exactly when the last of the cloned senders is dropped", "statement": "With any number of clones and drops of Sender in any order, the close on behalf of the senders happens exactly once, at the drop of the last live Sender, and never while one is still alive.", "quantifier": "every sequence of clones and drops by any number of threads", "why_tests_cant": "Quantifies over all clone/drop histories.", "anchors": ["src/mpsc/async_impl.rs: Clone for Sender, Drop for Sender", "src/mpsc.rs: tx_count"]}
{"id": "C33", "title": "Receiver::is_closed means all senders are gone", "statement": "is_closed() returns true if and only if all corresponding senders have been dropped; if it returns true no new message will ever become available.", "quantifier": "every number of live senders", "why_tests_cant": "Contract quantifies over all channel states.", "anchors": ["src/mpsc/async_impl.rs: Receiver::is_closed", "src/mpsc/blocking.rs: Receiver::is_closed"]}
{"id": "C34", "title": "Error predicates agree with the error", "statement": "TrySendError::is_full/is_closed and SendTimeoutError::is_timeout/is_closed return true exactly for the variant they name.", "quantifier": "every error value", "why_tests_cant": "Contract over all values of the error types.", "anchors": ["src/mpsc/errors.rs: TrySendError::{is_full,is_closed}, SendTimeoutError::{is_timeout,is_closed}"]}
{"id": "C35", "title": "A static channel is split at most once", "statement": "However many threads call split/try_split concurrently on one static channel, exactly one of them obtains the sender/receiver pair and the others get None (or panic).", "quantifier": "any number of threads and calls, every schedule", "why_tests_cant": "Ranges over all interleavings.", "anchors": ["src/mpsc/async_impl.rs: StaticChannel::{split,try_split}", "src/mpsc/blocking.rs: StaticChannel"]}
{"id": "C36", "title": "Timed receives and sends respect the timeout", "statement": "recv_timeout/send_timeout never report Timeout before `timeout` has elapsed since the call, never report it when a message/slot was obtained, do not consume or lose any message when they time out, and return no later than the timeout after the call began (up to scheduling delay).", "quantifier": "every timeout, every pattern of (spurious) wakeups and elapsed times", "why_tests_cant": "Depends on wall-clock and wakeup patterns that tests cannot enumerate.", "anchors": ["src/mpsc/blocking.rs: recv_ref_timeout, send_ref_timeout"]}
{"id": "C37", "title": "The fallback spin lock provides mutual exclusion", "statement": "On no_std targets at most one thread at a time holds the wait-queue lock, and a released lock can be taken again.", "quantifier": "any number of threads, every schedule", "why_tests_cant": "Ranges over all interleavings.", "anchors": ["src/util/mutex/spin_impl.rs: Mutex::lock, MutexGuard::drop"]}
{"id": "C38", "title": "Dropping a channel half while panicking still disconnects the other half", "statement": "If a thread panics and its Sender (the last one) or its Receiver is dropped during unwinding, the other side still observes the disconnection: recv returns None / send returns Closed instead of waiting forever.", "quantifier": "every channel state at the time of the panic", "why_tests_cant": "Needs a panic at an arbitrary point plus a peer that blocks.", "anchors": ["src/lib.rs: Core::close (panicking() check)", "src/mpsc/blocking.rs: Drop for Sender", "src/mpsc.rs: close_rx"]}
{"id": "C39", "title": "Per-producer order and head-of-line order", "statement": "Messages reserved by one producer are received in the order it reserved them, and a message is never delivered while an earlier reservation is still unfinished.", "quantifier": "every number of producers, every schedule", "why_tests_cant": "Ranges over all interleavings.", "anchors": ["src/lib.rs: Core::push_ref, Core::pop_ref, Ref::drop"]}
{"id": "C40", "title": "A message is visible before its wakeup is sent, a slot is free before its wakeup is sent", "statement": "When a SendRef (RecvRef) is dropped, the element is published (slot released) strictly before the other side is notified, so a woken peer that polls finds it.", "quantifier": "every schedule", "why_tests_cant": "The drop-order dependency is invisible to functional tests.", "anchors": ["src/mpsc.rs: SendRefInner, RecvRefInner, NotifyRx, NotifyTx"]}
{"id": "C41", "title": "Backoff never overflows and bounds spinning", "statement": "For any sequence of spin and spin_yield calls the backoff counter stays within its 8-bit range and every burst of spin-loop hints is bounded; repeated spin eventually reports done_spinning, so pop's bounded wait ends.", "quantifier": "every sequence of calls", "why_tests_cant": "Ranges over call sequences of any length.", "anchors": ["src/util.rs: Backoff"]}
{"id": "C42", "title": "recv reports disconnection only after real disconnection", "statement": "recv/poll_recv never returns None while a sender handle is alive and no close happened; recv waits (Pending) only after its waker is registered and the queue was re-checked.", "quantifier": "every schedule", "why_tests_cant": "Ranges over all interleavings of poll with senders.", "anchors": ["src/mpsc.rs: poll_recv_ref"]}
{"id": "C43", "title": "A panicking waker does not corrupt the receiver's wait cell", "statement": "If cloning the waker panics inside a receive poll, the wait cell returns to a usable state: later polls can register and be notified.", "quantifier": "every interleaving of the panicking registration with notifiers", "why_tests_cant": "Needs a panic in a user-supplied clone at one exact point, racing with notifiers (the repository's test for it is commented out).", "anchors": ["src/wait/cell.rs: wait_with (catch_unwind)"]}
{"id": "C44", "title": "Two receives waiting on one Receiver are both woken", "statement": "Receiver::recv takes &self, so two tasks may wait on the same receiver at once. If both were told to wait, the sends and closes that follow wake both of them (at the latest when the last sender is dropped).", "quantifier": "every interleaving of two or more waiting receives with notifiers", "why_tests_cant": "Needs two receive futures on one Receiver interleaved with the senders; the failure shows only as a task that is never polled again.", "anchors": ["src/wait/cell.rs: WaitCell::wait_with, notify2", "src/mpsc.rs: poll_recv_ref"]}
{"id": "C45", "title": "Containers drop exactly their elements", "statement": "Dropping any type of the crate that contains a ring - ThingBuf, StaticThingBuf, a heap channel, a StaticChannel - fails no assertion and drops each initialised element exactly once.", "quantifier": "every container type, every history of operations before the drop, debug and release builds", "why_tests_cant": "A test drops the container after a few chosen histories, and a StaticChannel is normally a static that is never dropped.", "anchors": ["src/lib.rs: Drop for Core", "src/thingbuf.rs: Drop for ThingBuf", "src/static_thingbuf.rs: Drop for StaticThingBuf", "src/mpsc/async_impl.rs: Drop for Inner, StaticChannel", "src/mpsc/blocking.rs: Drop for Inner, StaticChannel"]}
{"id": "C46", "title": "No data race on elements under weak memory", "statement": "With the memory orderings written in the code, two accesses to the same element by different threads (initialising, recycling, reading or writing through a push or pop handle) are always ordered by happens-before, and no element is read before it is initialised. None of the three orderings this rests on (Acquire on both loads of a slot's state, Release on the store when a handle is dropped) can be relaxed.", "quantifier": "every number of threads, every interleaving, every value a load may return on weak memory, every capacity and word width", "why_tests_cant": "Stale reads depend on hardware and compiler reordering; tests run on one machine and loom explores only small bounded cases.", "anchors": ["src/lib.rs: Core::push_ref (state.load Acquire)", "src/lib.rs: Core::pop_ref (state.load Acquire)", "src/lib.rs: Drop for Ref (state.store Release)"]}
{"id": "C47", "title": "The queue guarantees hold under weak memory", "statement": "FIFO order, nothing lost or duplicated, capacity bound, per-producer order, which element a handle exposes, and that only the handle's holder changes it: all hold when loads may return old values.", "quantifier": "every number of threads, every interleaving, every value a load may return on weak memory, every capacity and word width", "why_tests_cant": "Stale reads of head, tail and slot states cannot be produced at will by a test.", "anchors": ["src/lib.rs: Core::push_ref", "src/lib.rs: Core::pop_ref", "src/lib.rs: Drop for Ref"]}
{"id": "C48", "title": "Sending happens before receiving", "statement": "Everything a sender did before dropping its push handle is visible to the thread that dequeues that element; everything a receiver did before dropping its pop handle is visible to the sender that reuses the slot.", "quantifier": "every number of threads, every interleaving, every value a load may return on weak memory", "why_tests_cant": "Missing synchronisation shows only on weakly ordered hardware, and only sometimes.", "anchors": ["src/lib.rs: Core::push_ref", "src/lib.rs: Core::pop_ref", "src/lib.rs: Drop for Ref"]}
{"id": "C49", "title": "Results are truthful under weak memory", "statement": "A push reports Full only if the queue is full, Closed only if it is closed; a pop reports Closed only if it is closed and drained; a pop reports Empty only if, when the call started, the caller had not seen the completion and dequeue of every element dequeued so far and the completion of the next one - with a single consumer: never when completing the oldest element happens before the call.", "quantifier": "every number of threads, every interleaving, every value a load may return on weak memory", "why_tests_cant": "The decisive reads (head and tail by fetch_or, the slot's state) race with concurrent updates; old values cannot be produced at will.", "anchors": ["src/lib.rs: Core::push_ref (head.fetch_or)", "src/lib.rs: Core::pop_ref (tail.fetch_or, done_spinning)", "src/lib.rs: Core::close"]}
{"id": "C50", "title": "The receiver's wait cell is sound under weak memory", "statement": "With the memory orderings of the code no access to the stored waker is a data race, and weakening any of the five orderings involved makes one possible. No assertion fails; a waiting receiver that was notified has been or is about to be woken; the waker taken is the latest; Closed is answered only after a close; calls finish in a bounded number of steps.", "quantifier": "every number of threads, every interleaving, every value a failing compare_exchange may read on weak memory", "why_tests_cant": "Missing synchronisation shows only on weakly ordered hardware, and only sometimes.", "anchors": ["src/wait/cell.rs: WaitCell::wait_with", "src/wait/cell.rs: WaitCell::notify2"]}
{"id": "C51", "title": "No lost wakeups of the receiver under weak memory", "statement": "With the memory orderings of the code: if recv was told to wait and the message to be received next has been completed, or all senders have been dropped, then the waker the receiver registered has been woken, or some sender is in the middle of doing so; once no sender is in the middle of a send or of being dropped, it has been woken. (Blocking flavour: unless the last sender was dropped by a panicking thread.) If neither compare_exchange of a registration acquires, or the fetch_or of a notification does not release, a receiver can sleep forever next to a message.", "quantifier": "every number of senders, every interleaving, every value a load or a failing compare_exchange may return on weak memory, every capacity and word width, both flavours", "why_tests_cant": "A receiver that registers after a stale look at the ring loses the wakeup only under particular reorderings.", "anchors": ["src/mpsc.rs: ChannelCore::poll_recv_ref", "src/mpsc.rs: Drop for NotifyRx", "src/wait/cell.rs: WaitCell::wait_with", "src/wait/cell.rs: WaitCell::notify2"]}
{"id": "C52", "title": "The end of the stream is truthful under weak memory", "statement": "With the memory orderings of the code: recv answers None and try_recv answers Closed only if all senders have been dropped and all messages were received in order (or one was never completed because its SendRef was leaked or its push panicked); nothing is sent afterwards. If the failing compare_exchange or the fetch_and of wait_with does not acquire, a message can be lost this way.", "quantifier": "every number of senders, every interleaving, every value a load or a failing compare_exchange may return on weak memory, every capacity and word width, both flavours", "why_tests_cant": "The check after Closed depends on having seen every message, which only fails under particular reorderings.", "anchors": ["src/mpsc.rs: ChannelCore::poll_recv_ref", "src/mpsc.rs: ChannelCore::try_recv_ref", "src/mpsc/async_impl.rs: Drop for Sender", "src/mpsc/blocking.rs: Drop for Sender"]}
{"id": "C53", "title": "Closing happens after everything that was sent", "statement": "When the last sender is dropped, the completion of every message ever sent, by whatever sender, happens before the closing of the channel. Both the Release of the decrement of the sender count and the fence of the last sender are needed for it.", "quantifier": "every number of senders, every interleaving, every weak-memory behaviour, both flavours", "why_tests_cant": "Missing synchronisation shows only on weakly ordered hardware, and only sometimes.", "anchors": ["src/mpsc/async_impl.rs: Drop for Sender", "src/mpsc/blocking.rs: Drop for Sender"]}
{"id": "C54", "title": "The senders' wait queue is sound under weak memory", "statement": "Treating every atomic access of the wait queue as relaxed (only the mutex and wakeups synchronise): no data race on the list or on a waiter, nothing released is touched, the list is exactly the line of waiting senders whenever the lock is free, whoever is woken waited longest and is woken with the waker it gave last, what a woken sender is told is what happened, released waiters are unreachable, and nobody gets stuck in the queue's code; provided no owner acts on having been taken before it was woken by whoever took it. Owners that only look when they were woken satisfy this. An owner polled for another reason may race with the notify that takes its waiter.", "quantifier": "every number of threads and waiters, every interleaving, every old value a load or failing compare_exchange may return, debug and release builds", "why_tests_cant": "Old values are returned only on weakly ordered hardware and in narrow windows; data races need not have visible effects in a test.", "anchors": ["src/wait/queue.rs: WaitQueue::start_wait", "src/wait/queue.rs: WaitQueue::continue_wait", "src/wait/queue.rs: WaitQueue::notify", "src/wait/queue.rs: WaitQueue::close", "src/wait/queue.rs: Waiter::remove"]}
{"id": "C55", "title": "Notifications of the wait queue are not lost under weak memory", "statement": "With one thread notifying and no send cancelled while it waits: every notify wakes a waiting sender or leaves a stored notification, while a notification is stored nobody waits, and no debug assertion fails, although the notifier may read old values of the state word. With cancelled sends this fails even if no cancellation overlaps a notify: the notify may read the WAITING of before the cancellation, and the notification is lost (a panic in debug builds).", "quantifier": "every number of threads and waiters, every interleaving, every old value a load or failing compare_exchange may return, debug and release builds", "why_tests_cant": "The loss needs a load that returns an overwritten value.", "anchors": ["src/wait/queue.rs: WaitQueue::notify", "src/wait/queue.rs: WaitQueue::notify_slow", "src/wait/queue.rs: Waiter::remove"]}
{"id": "C56", "title": "Closing the wait queue reaches everybody under weak memory", "statement": "When close returns, everybody who waited at any time since the state word became CLOSED was woken and will be told Closed, or left by itself; from then on nobody waits, nobody is queued, and start_wait answers Closed, whatever old values are read. A start_wait called between the swap of CLOSED and the return of close may still be queued; it is woken.", "quantifier": "every number of threads and waiters, every interleaving, every old value a load or failing compare_exchange may return, debug and release builds", "why_tests_cant": "The window between the swap and the sweep, with a sender that has not heard of the close, does not occur in tests.", "anchors": ["src/wait/queue.rs: WaitQueue::close", "src/wait/queue.rs: WaitQueue::start_wait"]}
{"id": "C57", "title": "A full channel never deadlocks under weak memory", "statement": "On a whole channel (ring, receiver's wait cell, senders' wait queue) under the memory orderings of the code, with no send given up while it waits: whenever the channel is empty and a send is queued, the receiver is about to notify or a woken send has not tried again yet; dropping a RecvRef wakes a waiting send or leaves a notification; and if everybody has stopped while a send waits, there is a message for the receiver, and the receiver is not waiting or was woken. With cancelled sends this fails even if no cancellation overlaps a notify: a send and the receiver wait for each other in an empty channel.", "quantifier": "every element type, capacity, word width, number of Senders and sends, every interleaving and every old value a load or failing compare_exchange may return, async and blocking flavour, debug and release builds; fewer than slack pushes in total, RecvRefs dropped by the receiver's thread, sends polled when woken", "why_tests_cant": "The wakeups depend on three structures whose values may be read late by other threads; stuck executions need old values and particular interleavings.", "anchors": ["src/mpsc.rs: ChannelCore::try_send_ref", "src/mpsc.rs: RecvRef::drop", "src/mpsc/async_impl.rs: send_ref", "src/mpsc/blocking.rs: send_ref", "src/wait/queue.rs: WaitQueue"]}
{"id": "C58", "title": "Dropping the Receiver releases every waiting send under weak memory", "statement": "When the drop of the Receiver is over, no send waits that has not been woken, whether or not other sends were cancelled, unless the thread was panicking; a send that starts to wait afterwards is told Closed.", "quantifier": "every element type, capacity, word width, number of Senders and sends, every interleaving and every old value a load or failing compare_exchange may return, async and blocking flavour, debug and release builds; no call by a waiting send that was taken but not yet woken, no failed debug assertion before (see C57)", "why_tests_cant": "A send that has not heard of the close may still be queued while the queue is being closed, and must be found by the sweep.", "anchors": ["src/mpsc.rs: ChannelCore::close_rx", "src/wait/queue.rs: WaitQueue::close", "src/mpsc/async_impl.rs: Drop for Receiver", "src/mpsc/blocking.rs: Drop for Receiver"]}
{"id": "C59", "title": "The spin lock synchronises under weak memory", "statement": "Under the memory orderings of the code the fallback spin lock provides mutual exclusion, accesses to the protected data never race, everything that happened before an unlock happens before every later lock, and a free lock is taken within two steps by a waiting thread that reads the newest value. Acquire on the compare_exchange and Release on the unlocking store are both needed.", "quantifier": "every number of threads, every interleaving, every old value a load or failing compare_exchange may return, any additional synchronisation between threads", "why_tests_cant": "A missing ordering shows only on weakly ordered hardware in rare interleavings.", "anchors": ["src/util/mutex/spin_impl.rs: Mutex::lock", "src/util/mutex/spin_impl.rs: Drop for MutexGuard"]}
{"id": "C60", "title": "The queue is lock-free: whoever runs, some call gets somewhere", "statement": "ThingBuf is documented as a lock-free queue: if any number of threads inside push, pop and len keep running, some call reserves a place, obtains an element or returns after a bounded number of their steps, even if other threads are suspended at any point.", "quantifier": "every reachable state, every set of calls in progress, every schedule of their steps, every set of suspended threads", "why_tests_cant": "The absence of a livelock is a statement about all infinite schedules and all sets of suspended threads; a test sees one finite schedule.", "anchors": ["src/thingbuf.rs: struct ThingBuf docs ('lock-free')", "README.md", "src/lib.rs: Core::push_ref, Core::pop_ref, Core::len loops"]}
{"id": "C61", "title": "len is consistent under weak memory", "statement": "Under the memory orderings of the code, len returns the difference of a tail and a head that fit together: never more than the capacity, never counting an element as removed before it was added, and including every reservation and every dequeue that happens before the call. A caller that has heard of all of them, for example the only thread using the queue, is told the exact number of elements. Relaxed loads in len, or relaxed read-modify-writes of head and tail, would allow len to report elements that never existed.", "quantifier": "every element type, capacity, word width, number of threads, every interleaving and every old value a load may return, any additional synchronisation; queue never closed (ThingBuf), fewer pushes than words before they repeat", "why_tests_cant": "Reading an old tail together with a newer head happens only on weakly ordered hardware, in a window of a few instructions.", "anchors": ["src/lib.rs: Core::len", "src/thingbuf.rs: ThingBuf::len", "src/static_thingbuf.rs: StaticThingBuf::len"]}
{"id": "C62", "title": "Receiving calls return or go to sleep without help", "statement": "A try_recv, recv or poll_recv in progress never waits for another thread other than by returning Pending (parking): if it runs alone from any reachable state it returns a message, the end of the channel, or Pending within a fixed number of its own steps, even if other threads are suspended at any point of their calls.", "quantifier": "every element type, capacity and word width, both channel kinds, every reachable state, every point at which other threads are suspended", "why_tests_cant": "The loop in poll_recv_ref repeats only while another thread is between two atomic operations of notify; a test cannot suspend a thread there.", "anchors": ["src/mpsc.rs: ChannelCore::poll_recv_ref", "src/mpsc.rs: ChannelCore::try_recv_ref", "src/wait/cell.rs: WaitCell::wait_with", "src/wait/cell.rs: WaitCell::notify2"]}
{"id": "C63", "title": "A send that runs alone returns or goes back to sleep", "statement": "A send, try_send or poll of a send future in progress never burns CPU waiting for another thread: if it runs alone from any reachable state in which no other thread is in the middle of an operation, it returns or goes to sleep (parks, or returns Pending) within a fixed number of its own steps. In particular a sender that was woken for a slot which somebody else has taken in the meantime goes back to sleep, and send_timeout then still returns by its deadline.", "quantifier": "every element type, capacity and word width, both channel kinds, debug and release builds, every reachable state, every point inside the send", "why_tests_cant": "The slot must be snatched between the wakeup and the retry of the woken sender, and then the sender merely burns CPU and still gets through when another slot becomes free: a test sees no wrong result.", "anchors": ["src/mpsc/blocking.rs: send_ref", "src/mpsc/blocking.rs: send_ref_timeout", "src/mpsc/async_impl.rs: SendRefFuture::poll", "src/wait/queue.rs: WaitQueue::continue_wait"]}
{"id": "C64", "title": "Every wakeup is paid for", "statement": "No notification is duplicated. A sender is woken at most once for each time it went to sleep, and a receiver's waker at most once for each time it was passed to poll_recv; while the receiver is alive, the senders that were woken, plus those let through by a stored notification instead of going to sleep, number at most the slots the receiver has released, so one received message never wakes two senders.", "quantifier": "every element type, capacity and word width, both channel kinds, debug and release builds, every interleaving of any number of senders, cancellations, RecvRefs on any thread and notifiers", "why_tests_cant": "A duplicated wakeup makes the woken task retry and go back to sleep, so results stay right; only counting over all interleavings shows the duplication.", "anchors": ["src/wait/queue.rs: WaitQueue::notify", "src/wait/queue.rs: WaitQueue::start_wait", "src/wait/cell.rs: WaitCell::notify2", "src/mpsc.rs: NotifyTx::drop"]}
{"id": "C65", "title": "Weak memory adds behaviours and removes none", "statement": "Whatever the queue, the receiver's wait cell and the senders' wait queue can do when their atomic accesses are interleaved one at a time, they can do under the memory orderings written in the code, with the same results, wakeups and final memory; the converse is false for the queue (a pop may return None although a message was there throughout).", "quantifier": "every element type, capacity, word width and choice of orderings that excludes races, every interleaving with fewer pushes than the counters can tell apart", "why_tests_cant": "It compares two sets of executions, all interleavings against all weak-memory executions; a test sees single executions on one machine.", "anchors": ["src/lib.rs: Core::push_ref", "src/lib.rs: Core::pop_ref", "src/lib.rs: Core::len", "src/wait/cell.rs: WaitCell", "src/wait/queue.rs: WaitQueue"]}
{"id": "C66", "title": "A message that is there is received at once", "statement": "Whenever the oldest message not yet received has been committed (its SendRef dropped), recv, poll_recv or try_recv, about to look at the queue and running without interference, returns exactly that message in four atomic steps, wherever every other thread is suspended: a sender stopped inside notify, inside the wait queue's lock or with an open SendRef cannot delay or hide it.", "quantifier": "every element type, capacity and word width, both channel kinds, debug and release builds, every reachable state, every stage of the receive loop", "why_tests_cant": "It is about threads stopped at every possible instruction; a test cannot place them there.", "anchors": ["src/lib.rs: Core::pop_ref", "src/mpsc.rs: ChannelCore::try_recv_ref", "src/mpsc.rs: ChannelCore::poll_recv_ref"]}
{"id": "C67", "title": "A send that finds room returns at once", "statement": "When the channel is open and holds fewer messages than its capacity, send, try_send or a poll of the send future, about to look at the queue and running without interference, returns a SendRef in five atomic steps without touching the wait queue; when the channel is closed it returns Closed in two.", "quantifier": "every element type, capacity and word width, both channel kinds, debug and release builds, every reachable state, every stage of the send loop", "why_tests_cant": "It is about other threads stopped at every possible instruction, including inside the wait queue's lock; a test cannot place them there.", "anchors": ["src/lib.rs: Core::push_ref", "src/mpsc.rs: ChannelCore::try_send_ref", "src/mpsc/async_impl.rs: Sender::send_ref", "src/mpsc/blocking.rs: send_ref"]}
{"id": "C68", "title": "A receiver may keep the RecvRefs it got", "statement": "Keeping RecvRefs (for instance collecting the items of the Iterator on a blocking Receiver) is safe: kept RecvRefs plus reserved slots never exceed the capacity, and the receiver's next call still returns, with the next message, or with None once the senders are gone.", "quantifier": "every element type, capacity and word width, both channel kinds, debug and release builds, every reachable state and schedule", "why_tests_cant": "The hang needs as many kept handles as slots and then shows as a call that never returns, which no finite run can establish; the accounting is about every interleaving.", "anchors": ["src/lib.rs: Core::pop_ref", "src/lib.rs: Core::push_ref", "src/mpsc.rs: RecvRef", "src/mpsc/blocking.rs: Iterator for &Receiver"]}
