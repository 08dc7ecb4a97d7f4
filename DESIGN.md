# Formal model of thingbuf: design

Target: `hawkw/thingbuf` as found in `/repo` (read as text only; nothing was built or run).
Prover: Coq 8.16.1, standard library only. Build: `cd rocq && coq_makefile -f _CoqProject -o Makefile && make -j4`
(about ten minutes on four cores).

## 1. Modelling approach

* **Machine words** are `N` reduced modulo `2^W`; the width `W` and the capacity are universally quantified. The
  bit operations of the Rust code (`&`, `|`, `!`, `<<`, `wrapping_add`) are `N.land`, `N.lor`, `N.lnot`,
  `N.shiftl`, addition mod `2^W`.
* **Concurrency** is interleaving of small steps. An agent (thread, or one in-flight call / one outstanding
  handle) is a program counter with its local variables; each step performs at most one access to shared
  memory. The set of agents is unbounded (`nat -> pc`). The scheduler is an arbitrary list of actions; weak
  compare-exchange may fail spuriously, values written by user code and panics of user code are scheduler's
  choices. Memory is sequentially consistent except in the `Weak*` files, which give every atomic access of
  the ring (and, where listed, of other components) the ordering written in the code.
* **Executable**: every step function is a total Gallina function. Out-of-bounds accesses, reads of
  uninitialised elements, accesses to released waiters, data races and failed debug assertions are explicit
  events, never silently excluded.
* **Specification is separate** from the model: histories of events (`History.v`, `WaitQueueSpec.v`,
  `ChannelSpec.v`), an append-only log (`QueueSpec.v`), a bounded list (`SeqSpec.v`), a plain list
  (`WaitListSpec.v`). Theorem statements use the history vocabulary; the log and the invariants appear only in
  proofs.
* Files named `*Model.v` (and the small component files listed below) contain no proofs; each definition carries
  a comment with the file and lines it models, and says where it simplifies. Theorems are in `*Theorems*.v`,
  each followed by `Print Assumptions` and by an `Example` that meets its hypotheses.

### What is modelled, function by function

| code | model | remarks |
|---|---|---|
| `src/lib.rs` `Core::new`, `idx_gen`, `next`, `push_ref`, `pop_ref`, `len`, `close`, `Slot`, `Ref` (deref, drop) | `CoreModel` | one step per atomic access; element accesses of a held `Ref` are one step each |
| the same with memory orderings | `WeakModel` | views and modification orders; see "Memory model" |
| `Drop` of `ThingBuf`, `StaticThingBuf`, `Inner`; `StaticChannel` (no `Drop`) | `Containers` | |
| `src/lib.rs` `drop_slots`, `Drop for Core` | `Teardown` | |
| `src/thingbuf.rs`, `src/static_thingbuf.rs` (`push`, `pop`, `push_with`, `pop_with`, `push_ref`, `pop_ref`, `len`, `remaining`, `is_empty`, `capacity`) | `SeqModel`, `Constructors` | `Debug`, iterator-free; static and heap variants share `Core` |
| `src/recycling.rs` (`DefaultRecycle`, `WithCapacity`, `take`) | `Recycling` | std collections = contents + capacity |
| `src/util.rs` `Backoff` | `BackoffModel` (counter also in `CoreModel`) | |
| `src/util/mutex/spin_impl.rs` | `SpinLock` | |
| the same with memory orderings | `WeakSpinModel` | vector clocks; the data is accessed through the guard |
| `src/mpsc/errors.rs` | `Errors` | |
| `tx_count`: `Sender::clone`, `Drop for Sender`, `is_closed`, static `split` | `TxCount` | |
| `recv_ref_timeout`, `send_ref_timeout` loops | `Timeouts` | abstract clock |
| `src/wait/cell.rs` `WaitCell` (`wait_with`, `notify`, `close_tx`) | `WaitCellModel` | every access to the lock word and to the waker is one step |
| the same with memory orderings | `WeakCellModel` | a failing compare_exchange may read an old value |
| `src/mpsc.rs` `try_send_ref`, `poll_recv_ref`, `try_recv_ref`, drops of `SendRef`, `RecvRef`, `Sender`, `Receiver`, `Sender::clone`, with memory orderings | `WeakChannelModel` | ring, wait cell and sender count together; `tx_wait` left out |
| `src/wait/queue.rs` `List` | `WaitList` | heap of waiters, `prev`/`next` links |
| `src/wait/queue.rs` `WaitQueue` (`start_wait`, `continue_wait`, `notify`, `notify_slow`, `close`, `Waiter::remove`) | `WaitQueueModel` | lock-protected code between two atomic accesses is one step |
| the same on weak memory | `WeakQueueModel` | all atomic accesses as if relaxed; only the mutex and wakeups synchronise |
| the whole channel with memory orderings: `send_ref` that waits, cancellation, timeouts, notification by dropped `RecvRef`s, drop of `Receiver` | `WeakWholeModel` | `WeakChannelModel` and `WeakQueueModel` together |
| `src/mpsc.rs` `ChannelCore`, `SendRefInner`/`RecvRefInner` drops, `poll_recv_ref`, `poll_send_ref`, `try_*`, `close_rx`/`close_tx`; `src/mpsc/async_impl.rs` and `src/mpsc/blocking.rs` `send_ref`, `recv_ref`, drops of `Sender`, `Receiver`, futures | `ChannelModel` | both flavours (`async` flag); the ring, cell and queue steps are those of their own models |

### Not modelled

The allocator and pinning; `loom` shims; formatting (`Debug`/`Display`), tracing macros; `Future`/`Stream`
plumbing beyond `poll` and drop; (`Iterator for &Receiver`, blocking.rs:1566-1572, is `recv_ref`, `CRecv`); cache-line padding; the executor (a woken task is polled
when the scheduler says so). `std` (`Mutex`, `Vec`, `String`, `thread::park`/`unpark`) is trusted to follow its
documentation. Type-level claims (`Send`/`Sync` impls, lifetimes) are not modelled; where a theorem relies on a
borrow (for instance that a `Receiver` is not dropped while a `RecvRef` exists) it is a premise
(`close_exclusive`, `one_receiver`).

### Memory model

* `CoreModel`, `WaitCellModel`, `WaitQueueModel`, `ChannelModel`: sequentially consistent. All theorems except
  those of the weak-memory properties (C46 and following) are about these.
* `WeakModel` (ring): every atomic location has its modification order; a thread's view bounds from below what it
  may read; release/acquire transfer views; read-modify-writes read the last value and continue release
  sequences; element accesses are non-atomic and a missing happens-before is an `UB` event. Simplifications:
  SeqCst is treated as AcqRel (more executions than the code has); no load buffering (as in RC11); plain stores
  to a slot's state by a thread that has not seen the newest value are reported as `UB` (proved never to happen);
  the SeqCst loads of `len` are weakened to acquire loads. The theorems assume fewer than `slack W cap` pushes in
  total, instead of `calm`.

* `WeakCellModel` (wait cell): the same for the lock word of the wait cell and the stored waker; races on the waker
  are recorded in the state. What threads see of the cell through other synchronisation is ignored (allows more
  executions).

* `WeakChannelModel` (receiving side of a channel): the two together. Each value of the cell's lock and the sender
  count carry a view of the ring, so that synchronisation through them is accounted for; synchronisation by other
  means (locks, spawning, moving handles, the `tx_wait` queue) may happen between any two parties at any time. Left
  out: `tx_wait`, panicking `Waker::clone`, two calls of `recv` at the same time (C44).

* `WeakQueueModel` (senders' wait queue): modification orders of the state word and of every waiter's state; a load
  or failing compare_exchange returns any value not older than what the thread has seen; the list and the waiters
  are ordinary memory, and races on them are recorded. All atomic accesses are treated as relaxed, whatever their
  ordering in the code, so the theorems hold a fortiori. Threads learn of each other through the mutex, and an
  owner that acts on a wakeup sees what the waking thread had seen. Owners may also act without having been woken
  (spurious polls); those that learn in this way that they were taken are recorded in `wq_hasty`.

* `WeakSpinModel` (spin lock): modification order of the flag; vector clocks; races on the data are recorded. C59 is what
  `WeakQueueModel` assumes of the mutex.

* `WeakWholeModel` (a whole channel): `WeakChannelModel` and `WeakQueueModel` side by side, each with its own views; what
  the queue's mutex and wakeups make visible in the ring is an instance of the synchronisation "by other means" of
  `WeakChannelModel`. Left out: `RecvRef`s dropped by another thread than the receiver's (C41).

### Premises that occur in theorems

* `wf W cap`: `0 < cap` and `4 * cap < 2^W`.
* `calm (slack W cap) es`: no call in progress is overtaken by a full wrap of the generation counter (the ABA
  window, about 2^62 operations for small queues on 64-bit machines). Implied by fewer than `slack W cap` pushes
  (`calm_when_few_pushes`). It cannot be dropped: `C02_wrap_refuted` (a stopped push
  exceeds the capacity, on every machine), `C01_wrap_refuted` (a value received twice), `C04_wrap_refuted` (two handles
  of one element).
* `no_ub` / `memory_ok`: nothing touched a released waiter so far. Guaranteed for schedules without
  cancellation, timeouts of queued waiters and spurious polls (`C28_patient`, `C28_channel`), and not in
  general (`C24_refuted`, `C28_refuted`, `C29_refuted`).
* `no_cancel`, `no_spurious`, `one_receiver`, `one_notifier`, `close_exclusive`: restrictions on the schedule; for
  each there is a `_refuted` theorem showing what goes wrong without it, or it is guaranteed by Rust's borrow
  rules (`close_exclusive`).
* `wq_hasty s = []` (C54-C58): no owner acted on having been taken before it was woken about it. Guaranteed for
  executors that poll only woken tasks (`C54_patient`, `C57_code_safe`), and not in general (`C54_hasty_race_refuted`).
* `debug`: `cfg(debug_assertions)`; theorems hold for both values unless one is given.

## 2. Trusted base

* Coq's kernel (8.16.1).
* `Print Assumptions` under every property theorem prints "Closed under the global context": no axioms. The
  checker's list of axioms in the environment contains seven from the standard library's `Coq.ssr.ssrunder`
  (`Under_rel…`), loaded with `Lia`'s dependencies; no theorem uses them.
* The faithfulness of the models as described in their comments and above.

## 3. Proof techniques

* Ring (C01-C06, C08-C10, C39): forward simulation of the automaton by the append-only log with an invariant over
  all agents and slots (`CoreInv`, `CoreStep`); "truthful" results are justified at the right earlier moment of the
  call (`moments`).
* Sequential API (C11-C14): driver functions built from the automaton, refinement to a bounded list, including
  wrap-around. Solo termination (C13) by exact characterisation of when a call spins.
  System-wide progress (C60): in a window without events the ring does not change, so each call behaves as if alone.
* Weak memory (C46-C49): invariant relating every modification order and every view to the log (`WeakInv`);
  every step refines a log step (`wi_step`), so the facts about logs (`ChainFacts`) carry over.
* Channel on weak memory (C51-C53): which completions a thread has seen, as an invariant over the ring's and the
  lock's views (`WeakChannelFacts`); a failed registration has seen every completion whose notification it replaces
  (`WeakChannelInv`).
* Wait cell, wait queue: invariants over all agents, ghost list of waiters, refinement of the linked list.
* Wait queue on weak memory (C54-C56): every weak execution is one of `lrun`, the sequentially consistent automaton
  extended by the few steps that old reads add (`stale` in `WaitQueueFacts`); the invariants of the queue are proved
  for `lrun`. That every old read is covered is an invariant over views (`WeakQueueInv`, `WeakQueueMove`); absence of
  races is one over who knows of which access (`WeakQueueData`).
* Whole channel on weak memory (C57, C58): both halves are executions of their own models (`C57_parts`), linked by an
  invariant on where each send is in the queue (`WeakWholeLink`); room is announced (`dinv_run` in `WeakWholeSend`, an
  invariant with one case for each party responsible for a free slot); deadlock freedom follows (`WeakWholeStop`).
* Channel: product of the three automata with linking invariants (`ChannelLink`, `ChannelInv`, `ChannelSend`,
  `ChannelRecv`), from which deadlock freedom follows for states in which everybody has stopped.

## 4. Findings

Each was found while proving; each is a machine-checked witness run or theorem unless marked (reading).

1. `TrySendError::is_closed` / `SendTimeoutError::is_closed` match the wrong variant (`C34_refuted`).
2. `Receiver::is_closed` is true while one sender is alive (`C33_refuted`).
3. `send_ref_timeout` returns `Timeout` without unlinking its stack-allocated waiter: the next notify writes to a
   dead stack frame (`C29_refuted`, `C29_always_left_behind`).
4. A notified send future that is dropped (or a timed send that times out after being notified) takes the wakeup
   with it; another waiting sender is stranded (`C25_refuted`, `C26_cancel_refuted`).
5. A cancellation between a notify's load of WAITING and its locking the list leaves the list empty: debug builds
   panic, release builds lose the notification (`C25_race_refuted`, `C25_race_panics_refuted`).
6. Two `RecvRef`s dropped on two threads: one notify can overwrite the other's stored notification; a sender waits
   for ever (`C27_refuted`, `C26_two_threads_refuted`; debug builds panic, `…_panics_refuted`).
7. `List::dequeue` swaps the node's state to WAKING before unlinking it: a poll or drop in this window frees the
   node while it is still linked (`C24_refuted`, `C28_refuted`).
8. `Core::close` does nothing while the thread is panicking: peers of a half dropped during a panic wait for ever
   (`C38_receiver_refuted`, `C38_sender_refuted`, `C38_try_recv_refuted`).
9. `push_ref`/`pop_ref` spin for ever while the slot they need is held by an outstanding `Ref`
   (`C13_refuted`, `C13_push_spins`, `C13_pop_spins`); a forgotten `SendRef` wedges the queue in the same way.
   So the queue is not lock-free in the usual sense: a push suspended between its reservation and its release stops
   the pushes that come round to its slot (`C60_refuted`), a suspended pop stops pushes and pops of an empty queue
   (`C60_all_stuck_refuted`); nothing else does (`C60_lock_free`). On the channel: a kept `RecvRef` makes `try_send`
   on an empty, open channel neither succeed nor report Full (`C67_refuted`); nothing else delays it (`C67_send`).
   A receiver that keeps as many `RecvRef`s as there are slots stops the channel for good: `collect()` on the
   `Iterator` of a blocking `Receiver` hangs, even after the senders are gone (`C68_refuted`, `C68_stops`).
10. A panic in `new_element`/`recycle`: teardown drops uninitialised memory, and the queue is wedged
    (`C15_refuted`, `C15_wedged`).
11. When the generation wraps to 0 an initialised element is overwritten without being dropped (`C16_refuted`).
12. `StaticThingBuf<T, 0>` / `StaticChannel<T, 0>` are accepted; the first push is out of bounds (`C07_refuted`).
13. Head-of-line blocking: a pop reports Empty while the oldest element is reserved but not published, whatever
    comes after it (`C03_case` shows it; `C39_head_of_line`).
14. Timeouts restart in full after a spurious unpark, and there is no final poll (`C36_refuted`, `C36_refuted_send`).
15. Blocking `send_ref` that was woken but finds the queue full again does not go back to sleep: its waiter keeps the
    state WAKING, so `continue_wait` keeps answering Notified and the thread spins until there is room or the channel
    is closed; `send_ref_timeout` does not look at the clock while it does (`C63_refuted`, `C63_send_spins`,
    `C63_sleeps_no_more`). The asynchronous send starts over as an unqueued waiter and does not have the problem
    (`C63_send_returns`).
16. A second receive waiting on the same `Receiver` replaces the first's registration; the first is never woken
    (`C44_refuted`).
17. `poll_recv_ref` does not return `Pending` but goes round its loop (waking its own waker each time) for as long as
    a sender is suspended between the `fetch_or` and the `fetch_and` of `WaitCell::notify2`: an executor thread is
    blocked by a preempted sender (`C62_refuted`, `C62_poll_spins`).
18. `Sync` impls of the handle types are wider than needed (reading).
19. `StaticChannel` has no `Drop` that calls `drop_slots`: see C45.
20. `Sender::clone` of static channels does not guard the count against overflow (`C32_refuted_on_overflow`).
21. `Core::len` on a closed empty queue returns the capacity, because the closed bit makes `tail != head` (latent:
    no public path calls `len` on a closed queue).
22. In debug builds a panicking waker clone racing with a notify turns into a failed debug assertion that drops an
    older waker (`C43_debug_assertion_refuted`).
23. `WaitQueue::notify_slow` could overwrite CLOSED if a notify raced with `close`; unreachable because a `RecvRef`
    borrows the `Receiver` (premise `close_exclusive`).
24. On weak memory `pop_ref` may report Empty although the oldest element was completely sent before the call in
    real time, if nothing orders the send before the call (`C49_empty_truthful_refuted`). This is inherent in the
    Acquire load and harmless for the channel's own waiting protocol.

25. On weak memory an owner polled for another reason while a notify takes its waiter races with the writes that
    unlink it: they come after the swap (Release) the owner's load synchronises with (`C54_hasty_race_refuted`). The
    weak-memory side of finding 7.
26. On weak memory a notify may read WAITING although the last waiter was cancelled before the notify began, and
    nothing overlapped: debug builds panic, release builds lose the notification (`C55_cancelled_refuted`,
    `C55_cancelled_panics_refuted`). Finding 5 without the overlap. A whole channel is then
    stuck, a send and the receiver waiting for each other (`C57_cancelled_refuted`). `notify_slow` does not reload the state word under the lock.

## 5. Properties

| id | title | status | files | note |
|---|---|---|---|---|
| C01 | MPMC FIFO: no loss, no duplication, no reordering | proved | `RingTheorems`, `WrapTheorems` | All capacities, widths with 4*cap < 2^W, any number of concurrent callers; calls must not be overtaken by a full generation wrap (calm). |
| C02 | Capacity is never exceeded and Full is truthful | proved | `RingTheorems`, `WrapTheorems` | All capacities, widths with 4*cap < 2^W, any number of concurrent callers; calls must not be overtaken by a full generation wrap (calm). |
| C03 | Empty/None is truthful | proved | `RingTheorems` | All capacities, widths with 4*cap < 2^W, any number of concurrent callers; calls must not be overtaken by a full generation wrap (calm). On weak memory see C49 (C49_empty_truthful_refuted). |
| C04 | Exclusive access to an element | proved | `RingTheorems`, `WrapTheorems` | All capacities, widths with 4*cap < 2^W, any number of concurrent callers; calls must not be overtaken by a full generation wrap (calm). |
| C05 | Elements handed out are initialised, new on first use and recycled afterwards | proved | `RingTheorems` | All capacities, widths with 4*cap < 2^W, any number of concurrent callers; calls must not be overtaken by a full generation wrap (calm). |
| C06 | Slot indexing is in bounds and counter arithmetic does not overflow | proved | `RingTheorems` | All capacities, widths with 4*cap < 2^W, any number of concurrent callers; calls must not be overtaken by a full generation wrap (calm). |
| C07 | A zero-capacity queue cannot cause out-of-bounds access | partial | `SeqTheorems` | REFUTED for StaticThingBuf/StaticChannel (CAP = 0 is accepted and the first push is out of bounds); proved for every asserting constructor. |
| C08 | Closing is permanent and atomic with respect to sending | proved | `RingTheorems` | All capacities, widths with 4*cap < 2^W, any number of concurrent callers; calls must not be overtaken by a full generation wrap (calm). |
| C09 | Messages sent before the close are all delivered before Closed is reported | proved | `RingTheorems` | All capacities, widths with 4*cap < 2^W, any number of concurrent callers; calls must not be overtaken by a full generation wrap (calm). |
| C10 | len, remaining and is_empty are consistent snapshots | proved | `RingTheorems` | All capacities, widths with 4*cap < 2^W, any number of concurrent callers; calls must not be overtaken by a full generation wrap (calm). |
| C11 | A ThingBuf used by one thread is exactly a bounded FIFO, even when the counters wrap | proved | `SeqTheorems` | Any operation sequence, any width and capacity, wrap-around included. |
| C12 | Failed pushes and sends give the value back unchanged and have no effect | proved | `MiscTheorems`, `SeqTheorems` | Ring, ThingBuf layer and the channel wrappers that return values in errors. |
| C13 | Non-blocking calls return: bounded steps when no handle is outstanding | partial | `SeqTheorems` | REFUTED as stated: a held pop handle makes a push or pop on the same slot spin for ever. The exact condition is proved: solo calls return within 6/14/5 steps iff the slot they need is not occupied. |
| C14 | Dropping the queue drops each initialised element exactly once | proved | `SeqTheorems` | For queues that saw fewer than span pushes (before the generation wraps; see C16 for after). |
| C15 | A panicking element constructor does not make teardown unsound | partial | `SeqTheorems` | REFUTED: after a panic in new_element teardown drops uninitialised memory and the queue is wedged for ever (both proved). Soundness without panics is proved. |
| C16 | No element is leaked when the position counter wraps | partial | `RingTheorems`, `SeqTheorems` | REFUTED on every word width: after span pushes the generation wraps to 0 and an initialised element is overwritten without drop. Before that many pushes it never happens (C05_no_overwrite). |
| C17 | WithCapacity policy bounds | proved | `MiscTheorems` | Standard-library collections are modelled by contents plus capacity; reserve/shrink behave as documented. |
| C18 | Recycled contents never leak into the next message | proved | `MiscTheorems` |  |
| C19 | Receiver waker cell has no data race | proved | `WaitCellTheorems` | Small-step model of wait/cell.rs with any number of threads in wait_with, notify and close_tx; every access to the stored waker is a separate step. |
| C20 | A receiver that registered to be woken is woken | proved | `WaitCellTheorems` | One receiver, any number of notifiers and closers. A sender that has the waker in hand wakes it within a bounded number of its own steps (C20_wait_free). |
| C21 | The most recently passed waker is the one woken | proved | `WaitCellTheorems`, `WaitQueueTheorems` | Receiver cell and senders queue, any number of threads. Queue: As long as no released waiter was touched (C28 says when that is guaranteed). |
| C22 | Waiting senders are woken in the order they started waiting | proved | `WaitQueueTheorems` | Any number of waiters, notifiers, closers and cancellations. As long as no released waiter was touched (C28 says when that is guaranteed). |
| C23 | Waiter list stays well linked under enqueue, wake and cancellation | proved | `WaitQueueTheorems` | The list operations on lists of any length, and the list inside the running queue at every moment the lock is free. As long as no released waiter was touched (C28 says when that is guaranteed). |
| C24 | A dropped (cancelled) send future is never referenced again | partial | `WaitQueueTheorems` | REFUTED: a future dropped between the state swap and the unlinking of List::dequeue is freed while still linked. Proved whenever no owner looks at its waiter in that window. |
| C25 | Cancelling a send never strands another waiting sender | partial | `WaitQueueTheorems` | REFUTED: a future dropped after it was notified takes the wakeup with it; and a cancellation overlapping a notify makes the notify panic (debug) or lose its notification (release). Proved for cancellations of not yet notified futures outside notify calls. |
| C26 | No deadlock between waiting senders and the receiver | proved | `ChannelTheorems`, `WaitQueueTheorems` | Composition of ring, receiver cell and senders queue, both flavours, any number of senders. Premise memory_ok: no released waiter was touched so far (C28_channel proves it from: no send cancelled or timed out, no spurious polls or unparks; it fails only through findings 3 and 7). The _refuted theorems show that the conditions (no cancelled sends, RecvRefs dropped on one thread) are needed. A last Sender dropped by a panicking thread is C38. |
| C27 | Handles dropped concurrently by several threads still wake waiting senders | partial | `WaitQueueTheorems` | REFUTED: a notify that read WAITING can wipe out a notification stored meanwhile by another thread (release) or panic (debug). Proved with one notifying thread at a time. |
| C28 | Waiter memory is never used after the waiting call has returned | partial | `ChannelTheorems`, `WaitQueueTheorems` | REFUTED: a poll between the state swap and the unlinking lets the send return while its waiter is about to be written. Proved for every schedule without such a poll. |
| C29 | A timed-out send leaves nothing behind | partial | `WaitQueueTheorems` | REFUTED: a timed send that gives up while queued always leaves its waiter in the list, and the next notify touches the dead frame. Timeouts of waiters already unlinked are harmless (C28_no_use_after_release). |
| C30 | Dropping the receiver wakes every waiting sender with Closed | proved | `ChannelTheorems`, `WaitQueueTheorems` | Receiver dropped by a thread that is not panicking (else C38). Premise memory_ok: no released waiter was touched so far (C28_channel proves it from: no send cancelled or timed out, no spurious polls or unparks; it fails only through findings 3 and 7). |
| C31 | After the last sender is dropped, recv drains and then returns None forever | proved | `ChannelTheoremsEnd`, `WaitCellTheorems` | Both flavours; the blocking flavour only if the last Sender is not dropped by a panicking thread (else C38). |
| C32 | The channel closes exactly when the last of the cloned senders is dropped | proved | `MiscTheorems` | Proved for every clone/drop sequence with fewer than 2^W live senders; C32_refuted_on_overflow shows the bound is needed because the count is not guarded. |
| C33 | Receiver::is_closed means all senders are gone | partial | `MiscTheorems` | REFUTED: Receiver::is_closed is true while one sender is still alive; the exact meaning is proved. |
| C34 | Error predicates agree with the error | partial | `MiscTheorems` | REFUTED: is_closed of TrySendError/SendTimeoutError matches the wrong variant; the other predicates are proved. |
| C35 | A static channel is split at most once | proved | `MiscTheorems` |  |
| C36 | Timed receives and sends respect the timeout | partial | `MiscTheorems` | REFUTED as a bound on waiting time: a spurious unpark re-parks for the full timeout. What is guaranteed is proved. |
| C37 | The fallback spin lock provides mutual exclusion | proved | `MiscTheorems` |  |
| C38 | Dropping a channel half while panicking still disconnects the other half | partial | `ChannelTheoremsEnd` | REFUTED: Core::close does nothing while panicking, so a blocking receiver waits forever after the last Sender was dropped by a panicking thread, and a send waits forever in both flavours after the receiver was. Proved for recv of the async flavour. |
| C39 | Per-producer order and head-of-line order | proved | `RingTheorems` | All capacities, widths with 4*cap < 2^W, any number of concurrent callers; calls must not be overtaken by a full generation wrap (calm). |
| C40 | A message is visible before its wakeup is sent, a slot is free before its wakeup is sent | proved | `ChannelTheoremsEnd` |  |
| C41 | Backoff never overflows and bounds spinning | proved | `MiscTheorems` |  |
| C42 | recv reports disconnection only after real disconnection | proved | `ChannelTheoremsEnd`, `WaitCellTheorems` |  |
| C43 | A panicking waker does not corrupt the receiver's wait cell | proved | `WaitCellTheorems` | The cell is usable again after any history of panicking registrations. C43_debug_assertion_refuted records that in debug builds the panic can be turned into a failed debug assertion that drops an older waker. |
| C44 | Two receives waiting on one Receiver are both woken | partial | `WaitCellTheorems` | REFUTED: the second registration replaces the first and the first task is never woken, not even by the last sender closing. |
| C45 | Containers drop exactly their elements | partial | `ContainerTheorems` | False for StaticChannel, which has no Drop: dropping one panics in debug builds and leaks its elements in release builds (finding 18). Proved for the other three containers under the premises of C14. |
| C46 | No data race on elements under weak memory | proved | `WeakTheorems` | Weak-memory model of the ring (views, promise-free; SeqCst treated as AcqRel; len left out), for fewer than slack W cap pushes in total. For each of the three orderings a racing execution with that ordering relaxed. |
| C47 | The queue guarantees hold under weak memory | proved | `WeakTheorems` | As C46. |
| C48 | Sending happens before receiving | proved | `WeakTheorems` | As C46. Happens-before is tracked by the model: every view contains the set of events that happened before it. |
| C49 | Results are truthful under weak memory | proved | `WeakTheorems` | As C46. Unlike under sequential consistency (C03), Empty may be returned although the oldest element is complete throughout the call, if its completion does not happen before the call (refuted by a witness); the statement proved is the one relative to what the caller has seen. |
| C50 | The receiver's wait cell is sound under weak memory | proved | `WeakCellTheorems` | Weak-memory model of the cell (as C46). No assertion fails provided cloning the waker does not panic (see C43). Unlike under sequential consistency (C31) a registration after close_tx may be answered Notified once more, having read an old value (refuted by a witness). |
| C51 | No lost wakeups of the receiver under weak memory | proved | `WeakChannelTheorems` | Weak-memory model of ring, cell and sender count together (as C46; tx_wait left out, the receiver is used by one call at a time, panicking Waker::clone left out). C51_parts: everything proved of ring and cell alone (C46-C50) holds of those of a channel. |
| C52 | The end of the stream is truthful under weak memory | proved | `WeakChannelTheorems` | Weak-memory model of ring, cell and sender count together (as C46; tx_wait left out, the receiver is used by one call at a time, panicking Waker::clone left out). The two necessity witnesses relax the read-modify-writes of the ring as well, which the theorems do not need to synchronise. |
| C53 | Closing happens after everything that was sent | proved | `WeakChannelTheorems` | Weak-memory model of ring, cell and sender count together (as C46; tx_wait left out, the receiver is used by one call at a time, panicking Waker::clone left out). C52 turns out not to depend on it. |
| C54 | The senders' wait queue is sound under weak memory | proved | `WeakQueueTheorems` | The last clause (an impatient owner races) is the witness C54_hasty_race_refuted. |
| C55 | Notifications of the wait queue are not lost under weak memory | proved | `WeakQueueTheorems` | The loss with cancelled sends is given by witnesses; they use nothing but an old value returned by the Acquire load of notify. |
| C56 | Closing the wait queue reaches everybody under weak memory | proved | `WeakQueueTheorems` | That a sender may be queued after the swap of CLOSED is the witness C56_late_refuted. |
| C57 | A full channel never deadlocks under weak memory | proved | `WeakWholeTheorems` | The last clause (stuck with cancelled sends) is the witness C57_cancelled_refuted; a panicking thread that drops a half of the channel is excluded (C38). Weak-memory counterpart of C26. |
| C58 | Dropping the Receiver releases every waiting send under weak memory | proved | `WeakWholeTheorems` | Weak-memory counterpart of C30; panicking threads are excluded (C38). |
| C59 | The spin lock synchronises under weak memory | proved | `WeakSpinTheorems` | Discharges for the no_std build what WeakQueueModel assumes of the mutex. |
| C60 | The queue is lock-free: whoever runs, some call gets somewhere | partial | `LockFreeTheorems` | False as documented (a suspended push or pop stops the others); proved with the exact exception: the slot at the tail is kept busy, or the slot at the head is held, by a thread that does not run. Spurious failures of compare_exchange_weak are counted as events. |
| C61 | len is consistent under weak memory | proved | `WeakLenTheorems` | The SeqCst loads of len are treated as acquire loads, so the theorems hold for weaker code too; the last theorem shows that acquire loads and acquire-release read-modify-writes are needed. |
| C62 | Receiving calls return or go to sleep without help | partial | `PollTheorems` | False as stated: a poll spins for as long as a sender is suspended between the two atomic operations of notify (finding), and while a RecvRef to the next slot is kept (C13). Proved with exactly these exceptions, with a bound of 41 steps (15 for try_recv, which does not depend on notify). |
| C63 | A send that runs alone returns or goes back to sleep | partial | `SpinTheorems` | False as stated for the blocking channel: a woken send that finds the queue full again goes round its loop (finding). Proved for every other situation, and for the asynchronous channel without exception, with a bound of 57 steps. |
| C64 | Every wakeup is paid for | proved | `WakeTheorems` | Closing wakes every waiting sender, so the two counts against notify calls and released slots hold until the receiver is dropped. Ring counters must not have wrapped far enough to be confused (ring_calm, C27). |
| C65 | Weak memory adds behaviours and removes none | proved | `AgreeTheorems` | Ties the weak-memory models to the sequentially consistent ones: the former exclude no interleaving of the latter, so theorems about all weak executions are not true for want of executions. The whole channel is not covered, only its three parts. |
| C66 | A message that is there is received at once | proved | `PromptTheorems` | Nothing is required of the other threads. The receiver is at the start of a pass of its loop; the ring counters must not have wrapped far enough to be confused (ring_calm, C27). |
| C67 | A send that finds room returns at once | partial | `PromptTheorems` | False as stated: an empty open channel does not answer while somebody is between reserving and releasing the slot at the tail, for example while a RecvRef to it is kept. Proved with exactly this exception (C67_blocked: with it the call never returns); Closed needs no condition. |
| C68 | A receiver may keep the RecvRefs it got | partial | `KeptTheorems` | The accounting holds. The rest is false: with as many kept RecvRefs as slots nothing is sent or received under any schedule until one is dropped, and a receive never returns, even after all the senders are gone; so collect() on the Iterator hangs (finding). That other receives return is C62 (front_unheld). |

"partial" means that the property as stated in `properties.jsonl` is false or only partly proved; the note and the
theorems named `_refuted` / `_partial` say which.

## 6. Testing the theorems

`seeded/LOG.jsonl` records edits of the models like realistic bugs, made in a scratch copy and rebuilt: which
definition was edited, which claim is then false, which theorems failed to build, and what was tightened.
