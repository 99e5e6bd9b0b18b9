{"id": "C01", "title": "A cancellable wait completes at most once", "statement": "For every cancellable wait (queue::async_get, recurring_event::async_wait_if, wait_group::wait, future::get, post_ack_agent::poll) the receiver's set_value is called at most once, however start(), the wake-up and cancel() of its cancellation event race with each other.", "quantifier": "every number of operations, cancellation events and threads, every assignment of tokens to operations, and every interleaving of the library's atomic steps (including calls made from inside completion handlers)", "why_tests_cant": "A test runs a handful of the unboundedly many interleavings of start, wake-up and cancel; the races are a few instructions wide.", "anchors": ["include/async/cancellation.hpp: cancellation_resolver, cancellation_event", "include/async/queue.hpp: get_operation", "include/async/recurring-event.hpp: wait_if_operation", "include/async/wait-group.hpp: wait_operation", "include/async/promise.hpp: future::get_operation", "include/async/post-ack.hpp: poll_operation"]}
{"id": "C02", "title": "A cancellable wait that was woken or cancelled is never lost", "statement": "Once start() was called on a cancellable wait, and either the primitive woke it or its cancellation event was cancelled, the receiver is notified as soon as the library calls that are in flight have finished; those calls always finish after finitely many steps and never block each other forever. A wait that was neither woken nor cancelled is still pending.", "quantifier": "every number of operations, cancellation events and threads, every assignment of tokens to operations, and every interleaving of the library's atomic steps (including calls made from inside completion handlers)", "why_tests_cant": "Lost wake-ups only show up on particular interleavings and a test cannot tell a lost wake-up from a slow one.", "anchors": ["include/async/cancellation.hpp: cancellation_resolver, cancellation_event", "include/async/queue.hpp: get_operation", "include/async/recurring-event.hpp: wait_if_operation", "include/async/wait-group.hpp: wait_operation", "include/async/promise.hpp: future::get_operation", "include/async/post-ack.hpp: poll_operation"]}
{"id": "C03", "title": "Reported cancellation and reported success are exclusive and truthful", "statement": "A cancellable wait reports 'cancelled' only if cancel() was called on the event behind its own token, and only if the primitive did not also wake it; it reports success only if the primitive woke it (or its fast path applied). A wait with a default (empty) token never reports 'cancelled', so the asserts in wait(), future::get() and async_wait_if() without token cannot fire.", "quantifier": "every number of operations, cancellation events and threads, every assignment of tokens to operations, and every interleaving of the library's atomic steps (including calls made from inside completion handlers)", "why_tests_cant": "A test runs a handful of the unboundedly many interleavings of start, wake-up and cancel; the races are a few instructions wide.", "anchors": ["include/async/cancellation.hpp: cancellation_resolver, cancellation_event", "include/async/queue.hpp: get_operation", "include/async/recurring-event.hpp: wait_if_operation", "include/async/wait-group.hpp: wait_operation", "include/async/promise.hpp: future::get_operation", "include/async/post-ack.hpp: poll_operation", "include/async/wait-group.hpp: wait", "include/async/promise.hpp: future::get", "include/async/recurring-event.hpp: async_wait_if"]}
{"id": "C04", "title": "No library code touches a cancellable wait after it completed", "statement": "After the receiver of a cancellable wait has been notified, no library call still running (complete(), listen(), cancel()) accesses the operation object again, so the receiver may destroy it immediately.", "quantifier": "every number of operations, cancellation events and threads, every assignment of tokens to operations, and every interleaving of the library's atomic steps (including calls made from inside completion handlers)", "why_tests_cant": "Use-after-free needs a preemption between an atomic fetch_or and the following member access; tests practically never hit it.", "anchors": ["include/async/cancellation.hpp: cancellation_resolver::transition_, cancellation_resolver::complete, cancellation_event::cancel"]}
{"id": "C05", "title": "A cancellation event can be destroyed once its waits are over", "statement": "When every wait that used a cancellation event has been notified and every library call on it has returned, the event's callback list is empty, so the destructor's assertion 'all callbacks must be destructed before cancellation_event is destructed' cannot fire.", "quantifier": "every number of operations, cancellation events and threads, every assignment of tokens to operations, and every interleaving of the library's atomic steps (including calls made from inside completion handlers)", "why_tests_cant": "A test runs a handful of the unboundedly many interleavings of start, wake-up and cancel; the races are a few instructions wide.", "anchors": ["include/async/cancellation.hpp: cancellation_event::~cancellation_event, cancellation_resolver::transition_"]}
{"id": "C06", "title": "queue: items are neither lost, duplicated nor reordered", "statement": "Listing the successful async_get operations and successful maybe_get calls in the order in which they entered the queue, the items they return are exactly the items put into the queue, in put order, followed by the items still buffered. This holds although gets may be cancelled concurrently with puts.", "quantifier": "every item type, every sequence of put/emplace, async_get, maybe_get and cancel, every number of operations, cancellation events and threads, every assignment of tokens to operations, and every interleaving of the library's atomic steps (including calls made from inside completion handlers)", "why_tests_cant": "FIFO and exactly-once delivery must hold for all interleavings of cancellation with hand-off.", "anchors": ["include/async/queue.hpp: emplace, put, get_operation, try_cancel, maybe_get"]}
{"id": "C07", "title": "queue: a get waits only while the queue is empty", "statement": "There are never buffered items and queued gets at the same time; in particular the two assertions in emplace() and start() never fail, and when all library calls have returned, every started get is notified unless the buffer is empty and its event was not cancelled.", "quantifier": "every number of operations, cancellation events and threads, every assignment of tokens to operations, and every interleaving of the library's atomic steps (including calls made from inside completion handlers)", "why_tests_cant": "A test runs a handful of the unboundedly many interleavings of start, wake-up and cancel; the races are a few instructions wide.", "anchors": ["include/async/queue.hpp: emplace, get_operation::start"]}
{"id": "C08", "title": "queue: a cancelled get does not swallow an item", "statement": "A get that reports null consumed no item, and reports null only if its event was cancelled; a get that was handed an item reports that very item even if it is cancelled concurrently.", "quantifier": "every number of operations, cancellation events and threads, every assignment of tokens to operations, and every interleaving of the library's atomic steps (including calls made from inside completion handlers)", "why_tests_cant": "A test runs a handful of the unboundedly many interleavings of start, wake-up and cancel; the races are a few instructions wide.", "anchors": ["include/async/queue.hpp: try_cancel, get_operation::resume_fn"]}
{"id": "C09", "title": "recurring_event: raise() wakes every waiter that was queued before it", "statement": "If a wait was queued before a raise() took effect, then once the library calls in flight have returned the wait has been notified; raise() never blocks and its assertion never fails.", "quantifier": "every number of operations, cancellation events and threads, every assignment of tokens to operations, and every interleaving of the library's atomic steps (including calls made from inside completion handlers)", "why_tests_cant": "A test runs a handful of the unboundedly many interleavings of start, wake-up and cancel; the races are a few instructions wide.", "anchors": ["include/async/recurring-event.hpp: raise, wait_if_operation::start"]}
{"id": "C10", "title": "recurring_event: no spurious wake-up and truthful results", "statement": "A wait reports 'awaited' only if some raise() took effect after the wait was queued and before the report; it reports 'condition_failed' only if its condition evaluated to false in start(), and 'cancelled' only if its event was cancelled.", "quantifier": "every number of operations, cancellation events and threads, every assignment of tokens to operations, and every interleaving of the library's atomic steps (including calls made from inside completion handlers)", "why_tests_cant": "A test runs a handful of the unboundedly many interleavings of start, wake-up and cancel; the races are a few instructions wide.", "anchors": ["include/async/recurring-event.hpp: wait_if_operation, resume_fn, async_wait"]}
{"id": "C11", "title": "sequenced_event: a raise is never missed", "statement": "If raise() is called after a wait on in_seq started, or had been called so often that the sequence number exceeded in_seq when it started, the wait is notified once the calls in flight have returned.", "quantifier": "every number of operations, cancellation events and threads, every assignment of tokens to operations, and every interleaving of the library's atomic steps (including calls made from inside completion handlers)", "why_tests_cant": "The fetch_add and the wake-up are two separate steps; missing a raise needs a particular interleaving.", "anchors": ["include/async/sequenced-event.hpp: raise, async_wait"]}
{"id": "C12", "title": "sequenced_event: an uncancelled wait returns a sequence number above the one waited for", "statement": "async_wait(in_seq) that completes without having been cancelled returns a sequence number strictly greater than in_seq.", "quantifier": "every number of operations, cancellation events and threads, every assignment of tokens to operations, and every interleaving of the library's atomic steps (including calls made from inside completion handlers)", "why_tests_cant": "Depends on when a concurrent raise() is preempted between incrementing the number and waking waiters.", "anchors": ["include/async/sequenced-event.hpp: async_wait, raise"]}
{"id": "C13", "title": "barrier: nobody passes early", "statement": "A wait on the arrival token of a phase completes only after the phase is complete, i.e. after as many arrivals as were expected for that phase.", "quantifier": "every expected count, every mix of arrive, arrive_and_join, arrive_and_drop and async_wait, every number of operations, cancellation events and threads, every assignment of tokens to operations, and every interleaving of the library's atomic steps (including calls made from inside completion handlers)", "why_tests_cant": "Needs a preemption between completing a phase and waking its waiters.", "anchors": ["include/async/barrier.hpp: do_arrive, async_wait"]}
{"id": "C14", "title": "barrier: everybody passes eventually", "statement": "When a phase is complete and the library calls in flight have returned, every wait on the token of that phase (or an earlier one) has been notified.", "quantifier": "every expected count, every mix of arrive, arrive_and_join, arrive_and_drop and async_wait, every number of operations, cancellation events and threads, every assignment of tokens to operations, and every interleaving of the library's atomic steps (including calls made from inside completion handlers)", "why_tests_cant": "A test runs a handful of the unboundedly many interleavings of start, wake-up and cancel; the races are a few instructions wide.", "anchors": ["include/async/barrier.hpp: do_arrive, async_wait", "include/async/recurring-event.hpp: raise"]}
{"id": "C15", "title": "barrier: phase accounting", "statement": "The number of completed phases and the tokens handed out are determined by the sequence of arrivals alone: a call returns the number of phases completed before it, a phase completes exactly when the arrivals since the last completion equal the expected count, and no assertion fails as long as callers never arrive more often than expected.", "quantifier": "every initial expected count and every sequence of arrive(n), arrive_and_join(n), arrive_and_drop(n)", "why_tests_cant": "Quantifies over all histories of arrivals.", "anchors": ["include/async/barrier.hpp: arrive, arrive_and_join, arrive_and_drop, do_arrive"]}
{"id": "C16", "title": "wait_group: a wait is released only at zero", "statement": "A wait reports true only if between its start() and the report there was a moment at which done() had been called for every unit added so far.", "quantifier": "every initial count, every interleaving of add, done, wait and cancel in which done() is never called more often than units were added, every number of operations, cancellation events and threads, every assignment of tokens to operations, and every interleaving of the library's atomic steps (including calls made from inside completion handlers)", "why_tests_cant": "A test runs a handful of the unboundedly many interleavings of start, wake-up and cancel; the races are a few instructions wide.", "anchors": ["include/async/wait-group.hpp: done, add, wait_operation::start"]}
{"id": "C17", "title": "wait_group: reaching zero releases every waiter and done() never trips", "statement": "Under the rule that done() is called at most once per unit, the assertion in done() never fails; when the library calls in flight have returned and no units are left, no wait is pending.", "quantifier": "every initial count and interleaving of add, done, wait and cancel obeying the rule, every number of operations, cancellation events and threads, every assignment of tokens to operations, and every interleaving of the library's atomic steps (including calls made from inside completion handlers)", "why_tests_cant": "Lost wake-ups between the lock-free decrement and the locked one depend on the interleaving.", "anchors": ["include/async/wait-group.hpp: done"]}
{"id": "C18", "title": "wait_group: cancellation is safe for a group that is re-used", "statement": "Cancelling a wait of a group whose counter was raised again with add() after it had reached zero neither corrupts the wait list nor trips an assertion.", "quantifier": "every number of operations, cancellation events and threads, every assignment of tokens to operations, and every interleaving of the library's atomic steps (including calls made from inside completion handlers)", "why_tests_cant": "Needs add() and cancel() to fall between the wake-up decision and the notification of one particular waiter.", "anchors": ["include/async/wait-group.hpp: try_cancel, add, done"]}
{"id": "C19", "title": "wait_in_group: the group counts exactly the operations in flight", "statement": "An operation wrapped by wait_in_group adds one unit when started and removes it exactly once on completion, before its own receiver is notified with the unchanged value.", "quantifier": "every set of wrapped operations and every order of their starts and completions", "why_tests_cant": "Quantifies over all histories.", "anchors": ["include/async/wait-group.hpp: wait_in_group_details_::sender_::operation_"]}
{"id": "C20", "title": "oneshot_event: waits complete if and only if the event is raised", "statement": "No wait reports true before raise() is called; after raise() every wait, earlier or later, reports true once the calls in flight have returned (unless cancelled before).", "quantifier": "every number of operations, cancellation events and threads, every assignment of tokens to operations, and every interleaving of the library's atomic steps (including calls made from inside completion handlers)", "why_tests_cant": "A test runs a handful of the unboundedly many interleavings of start, wake-up and cancel; the races are a few instructions wide.", "anchors": ["include/async/oneshot-event.hpp: oneshot_event"]}
{"id": "C21", "title": "oneshot_event: raising again is a no-op", "statement": "As documented, calling raise() on an event that was already raised has no effect.", "quantifier": "every history of raise() and wait()", "why_tests_cant": "Documentation claim about every later state.", "anchors": ["include/async/oneshot-event.hpp: oneshot_event::raise", "docs/src/headers/oneshot-event.md", "include/async/wait-group.hpp: done"]}
{"id": "C22", "title": "oneshot_primitive: every wait completes exactly once, after raise()", "statement": "No wait completes before raise(); once raise() and the start() calls in flight have returned every started wait completed exactly once; raise() never reads a wait operation after notifying it.", "quantifier": "every number of waiters and threads and every interleaving of the lock-free push loop with raise(), including spurious compare_exchange_weak failures", "why_tests_cant": "Lock-free list; all interleavings.", "anchors": ["include/async/oneshot-event.hpp: oneshot_primitive::raise, wait_operation::start"]}
{"id": "C23", "title": "mutex: mutual exclusion", "statement": "Between a successful acquisition (async_lock completion or try_lock() returning true) and the matching unlock() call there is no other successful acquisition; no assertion in the implementation fails if unlock() is only called by holders.", "quantifier": "every number of threads and lock operations and every interleaving, including spurious compare_exchange_weak failures", "why_tests_cant": "All interleavings of lock-free fast paths with the queued slow path.", "anchors": ["include/async/mutex.hpp: mutex::lock_operation::start, try_lock, unlock"]}
{"id": "C24", "title": "mutex: suspended lockers are served in order and never barged", "statement": "async_lock operations that had to suspend acquire the mutex in the order in which they suspended, and while any of them is suspended no try_lock() or newly started async_lock can acquire the mutex before them.", "quantifier": "every number of threads and lock operations and every interleaving", "why_tests_cant": "Ordering across arbitrarily many waiters.", "anchors": ["include/async/mutex.hpp: mutex::unlock, lock_operation::start"]}
{"id": "C25", "title": "mutex: no lost wake-up, no deadlock", "statement": "When the mutex is not held and no library call is in flight, no async_lock is pending; and while calls are in flight at least one of them can make a step.", "quantifier": "every number of threads and lock operations and every interleaving", "why_tests_cant": "A lost wake-up is indistinguishable from a slow one in a test.", "anchors": ["include/async/mutex.hpp: mutex::unlock, lock_operation::start"]}
{"id": "C26", "title": "shared_mutex: readers-writer exclusion", "statement": "At any time there is either at most one exclusive holder and no shared holder, or no exclusive holder and any number of shared holders; no assertion fails if unlock()/unlock_shared() are only called by holders of the respective kind.", "quantifier": "every number of threads and operations and every interleaving, including spurious failures", "why_tests_cant": "All interleavings of lock-free reader paths with the queued paths.", "anchors": ["include/async/mutex.hpp: shared_mutex"]}
{"id": "C27", "title": "shared_mutex: suspended operations are served in order, a waiting writer is not overtaken", "statement": "Operations that suspended acquire in suspension order (a batch of consecutive readers together); while an operation is suspended, no try_lock, try_lock_shared or newly started async_lock(_shared) acquires before it.", "quantifier": "every number of threads and operations and every interleaving", "why_tests_cant": "Ordering across arbitrarily many waiters.", "anchors": ["include/async/mutex.hpp: shared_mutex::unlock, unlock_shared, lock_shared_operation::start"]}
{"id": "C28", "title": "shared_mutex: no lost wake-up, no deadlock", "statement": "When nobody holds the shared_mutex and no library call is in flight, no operation is suspended; while calls are in flight at least one of them can make a step.", "quantifier": "every number of threads and operations and every interleaving", "why_tests_cant": "Lost wake-ups.", "anchors": ["include/async/mutex.hpp: shared_mutex::unlock, unlock_shared"]}
{"id": "C29", "title": "shared_mutex: a shared acquisition blocks only for an exclusive owner", "statement": "As documented, acquiring in shared mode only blocks while the mutex is owned exclusively.", "quantifier": "every state of the mutex", "why_tests_cant": "Documentation claim over all states.", "anchors": ["include/async/mutex.hpp: shared_mutex::lock_shared_operation::start, try_lock_shared", "docs/src/headers/mutex.md"]}
{"id": "C30", "title": "future::get delivers the promised value to everybody", "statement": "After promise::set_value(v) every get() on any future of that promise, started before or after, completes exactly once with v once the calls in flight have returned, unless it was cancelled before; no get() completes with a value before set_value.", "quantifier": "every number of operations, cancellation events and threads, every assignment of tokens to operations, and every interleaving of the library's atomic steps (including calls made from inside completion handlers)", "why_tests_cant": "A test runs a handful of the unboundedly many interleavings of start, wake-up and cancel; the races are a few instructions wide.", "anchors": ["include/async/promise.hpp: promise::set_value, promise_state_base::wake, future::get_operation"]}
{"id": "C31", "title": "promise/future: shared state is freed exactly once, when the last handle dies", "statement": "For every sequence of copying, moving, assigning, swapping and destroying futures and promises, the shared state is destroyed exactly once, when the last handle referring to it is gone, and never accessed afterwards.", "quantifier": "every number of handles and every sequence of constructor, assignment, swap and destructor calls", "why_tests_cant": "Quantifies over all histories of handle operations.", "anchors": ["include/async/promise.hpp: future, promise_base, disown_state, ref, unref"]}
{"id": "C32", "title": "post_ack: every agent sees every post exactly once, in order", "statement": "The handles obtained by the successive polls of an attached agent refer to exactly the objects posted since the attachment, in posting order, without gaps or repetitions, even if polls are cancelled concurrently with posts; the assertions in poll(), post() and detach() do not fail for well-behaved agents.", "quantifier": "every number of agents and posts, every sequence of attach, detach, poll, post, ack and cancel obeying one poll at a time per agent, every number of operations, cancellation events and threads, every assignment of tokens to operations, and every interleaving of the library's atomic steps (including calls made from inside completion handlers)", "why_tests_cant": "A test runs a handful of the unboundedly many interleavings of start, wake-up and cancel; the races are a few instructions wide.", "anchors": ["include/async/post-ack.hpp: post_operation::start, poll_operation, attach, detach"]}
{"id": "C33", "title": "post_ack: a post completes exactly when everybody acknowledged it", "statement": "A post completes exactly once, and only after every agent that was attached when it was posted has acknowledged it or detached without having received it; when all have done so and the calls in flight have returned it has completed, and its node is not accessed afterwards.", "quantifier": "every number of agents and posts, every sequence of attach, detach, poll, post, ack and cancel obeying the usage rules, every number of operations, cancellation events and threads, every assignment of tokens to operations, and every interleaving of the library's atomic steps (including calls made from inside completion handlers)", "why_tests_cant": "A test runs a handful of the unboundedly many interleavings of start, wake-up and cancel; the races are a few instructions wide.", "anchors": ["include/async/post-ack.hpp: post_operation, post_ack_handle::ack, detach"]}
{"id": "C34", "title": "cancellation_callback: the functor runs at most once and only after cancel()", "statement": "The functor of a cancellation_callback runs at most once, only if cancel() was called, and it has run when the calls in flight have returned if cancel() was called while it was registered or before.", "quantifier": "every number of callbacks, events and interleaving of construction, destruction and cancel()", "why_tests_cant": "A test runs a handful of the unboundedly many interleavings of start, wake-up and cancel; the races are a few instructions wide.", "anchors": ["include/async/cancellation.hpp: cancellation_callback, cancellation_event::cancel"]}
{"id": "C35", "title": "cancellation_callback: no call after destruction, unbind() detaches", "statement": "After ~cancellation_callback() or unbind() returned, the functor is not called any more; unbind() followed by destruction is safe; the functor may use the token.", "quantifier": "every history of construct, unbind, destroy, cancel, is_cancellation_requested", "why_tests_cant": "Quantifies over all histories and re-entrant calls.", "anchors": ["include/async/cancellation.hpp: cancellation_callback::~cancellation_callback, unbind, cancellation_event::cancel"]}
{"id": "C36", "title": "cancellation_event::reset prepares the event for re-use", "statement": "reset() after cancel() makes the event usable again: waits and callbacks that still refer to it keep working or are finished, and destroying them is safe.", "quantifier": "every history of cancel, reset, registration and destruction", "why_tests_cant": "Quantifies over all histories.", "anchors": ["include/async/cancellation.hpp: cancellation_event::reset, cancellation_callback::~cancellation_callback, cancellation_resolver::transition_"]}
{"id": "C37", "title": "cancellation_observer: try_reset() and the handler are exclusive", "statement": "After a try_set() that returned true, or a force_set(), exactly one of the following happens: try_reset() returns true and the handler never runs, or try_reset() returns false and the handler runs exactly once (has run or will run).", "quantifier": "every number of observers and events and every interleaving with cancel()", "why_tests_cant": "A test runs a handful of the unboundedly many interleavings of start, wake-up and cancel; the races are a few instructions wide.", "anchors": ["include/async/cancellation.hpp: cancellation_observer::try_set, force_set, try_reset, cancellation_event::cancel"]}
{"id": "C38", "title": "suspend_indefinitely: completes exactly once, after the first cancellation", "statement": "suspend_indefinitely(ct1, ..., ctN) completes exactly once, only after some of the tokens was cancelled, does complete once a token was cancelled and the calls in flight have returned, never touches the operation after that, and its internal counter assertions never fail.", "quantifier": "every N, every assignment of tokens (also empty or shared ones) and every interleaving of start() with any number of cancel() calls", "why_tests_cant": "A test runs a handful of the unboundedly many interleavings of start, wake-up and cancel; the races are a few instructions wide.", "anchors": ["include/async/cancellation.hpp: suspend_indefinitely_operation::start, transition_"]}
{"id": "C39", "title": "with_cancel_cb: completes once, with the value, never while the callback runs", "statement": "with_cancel_cb completes exactly once with the value of the wrapped operation, not before the wrapped operation completed and not while the cancel callback is running or still going to run; the callback runs at most once and only after cancel().", "quantifier": "every interleaving of start, the completion of the wrapped operation and cancel()", "why_tests_cant": "A test runs a handful of the unboundedly many interleavings of start, wake-up and cancel; the races are a few instructions wide.", "anchors": ["include/async/cancellation.hpp: with_cancel_cb_operation"]}
{"id": "C40", "title": "when_all completes exactly once, when all its senders completed", "statement": "when_all(s1, ..., sN) notifies its receiver exactly once, after all N senders completed, whether they complete inside start() or later and on any thread.", "quantifier": "every N and every interleaving of the completions with start()", "why_tests_cant": "All interleavings and all inline/deferred combinations.", "anchors": ["include/async/algorithm.hpp: when_all_operation", "include/async/execution.hpp: start_inline"]}
{"id": "C41", "title": "race_and_cancel completes exactly once, after all its operations, and cancels the losers", "statement": "race_and_cancel notifies its receiver exactly once, after all N operations completed; when the first one completes, cancellation of every other one is requested before that completion call returns; the winner's own token is not cancelled.", "quantifier": "every N and every interleaving of the completions with start() and with each other", "why_tests_cant": "A test runs a handful of the unboundedly many interleavings of start, wake-up and cancel; the races are a few instructions wide.", "anchors": ["include/async/algorithm.hpp: race_and_cancel_operation"]}
{"id": "C42", "title": "race_and_cancel does not touch itself after completing", "statement": "Once the receiver of race_and_cancel was notified no completion call still running accesses the operation any more, so the receiver may destroy it.", "quantifier": "every N >= 2 and every interleaving of completions", "why_tests_cant": "Use-after-free in a narrow window.", "anchors": ["include/async/algorithm.hpp: race_and_cancel_operation::internal_receiver::set_value"]}
{"id": "C43", "title": "sequence, let, ite, repeat_while, transform, invocable and lambda behave like the sequential program", "statement": "For every nesting of these algorithms over arbitrary senders and user functions, the order of user-function calls, of starts of the leaf senders and the final value are those of the corresponding sequential program, whether the leaves complete inline or later; the receiver is notified at most once and exactly when the program ends.", "quantifier": "every sender expression, every user function, every (inline or deferred) completion behaviour of the leaf senders", "why_tests_cant": "Quantifies over all programs and all completion behaviours; proof is by induction on the expression.", "anchors": ["include/async/algorithm.hpp: invocable_operation, transform_sender, ite_operation, repeat_while_operation, let_operation, sequence_operation, lambda_operation"]}
{"id": "C44", "title": "sequential algorithms create and destroy their inner operations in balance", "statement": "In sequence, repeat_while, ite and let no inner operation is started before it is constructed, constructed over a live one, destroyed twice or left alive once the whole operation has been started, has completed and is destroyed.", "quantifier": "every sender expression and completion behaviour", "why_tests_cant": "Quantifies over all programs.", "anchors": ["include/async/algorithm.hpp: sequence_operation::do_step, repeat_while_operation::loop_, ite_operation, let_operation"]}
{"id": "C45", "title": "let: an operation that was never started can be destroyed", "statement": "Destroying a let() operation that was connected but never started is safe (as it is for the other algorithms).", "quantifier": "every let operation", "why_tests_cant": "Needs the destruction path without start.", "anchors": ["include/async/algorithm.hpp: let_operation::~let_operation"]}
{"id": "C46", "title": "result<T>: an awaited coroutine completes its awaiter exactly once with its value", "statement": "Starting a result<T> runs the coroutine and notifies the receiver exactly once with the co_returned value, whether the coroutine finishes inside start() or later on another thread, and nothing touches the operation or the coroutine after that notification.", "quantifier": "every number of suspensions of the coroutine and every interleaving of the thread that called start() with the threads that resume the coroutine", "why_tests_cant": "The handshake between start() and final_suspend is a race on one atomic.", "anchors": ["include/async/result.hpp: result_operation::start, result_promise final_suspend, result_continuation"]}
{"id": "C47", "title": "generator: next() yields the co_yielded values in order, then null", "statement": "The successive next() operations complete exactly once each with the co_yielded values in order, and with null after the coroutine returned; a value is never yielded without a consumer waiting for it.", "quantifier": "every generator body (any number of yields and inner suspensions), every completion timing", "why_tests_cant": "Quantifies over all bodies and schedules.", "anchors": ["include/async/generator.hpp: generator_promise, yield_awaiter, next_operation"]}
{"id": "C48", "title": "generator: next() after the end is harmless", "statement": "Calling next() again after the generator reported its end reports the end again.", "quantifier": "every generator", "why_tests_cant": "Needs behaviour after the final suspension.", "anchors": ["include/async/generator.hpp: next_operation::start"]}
{"id": "C49", "title": "detach and spawn free the operation exactly once, after completion", "statement": "detach_with_allocator()/spawn_with_allocator() allocate one control block, start the operation, and on completion destroy and free it exactly once; the continuation or receiver is called exactly once; nothing touches the block after it was freed, also if the operation completes inside start().", "quantifier": "every operation and every completion behaviour (inline, later, on another thread)", "why_tests_cant": "All completion timings.", "anchors": ["include/async/basic.hpp: detach_with_allocator, spawn_with_allocator, detach_details_, spawn_details_"]}
{"id": "C50", "title": "run() returns the value of the sender after exactly one completion", "statement": "run(sender, io_service) returns the value the sender completed with, calls wait() on the io service only while the sender has not completed, and run() without io service returns if the sender completes inline.", "quantifier": "every sender behaviour and every number of wait() calls needed", "why_tests_cant": "Unbounded number of io iterations.", "anchors": ["include/async/basic.hpp: run, run_forever, dummy_io_service"]}
{"id": "C51", "title": "mutex orders the memory accesses of its owners under the C++ memory model", "statement": "For async::mutex under the C++ memory model: everything an owner does to the protected data happens before everything later owners do, however they acquire the mutex (try_lock(), async_lock() without suspension, hand-off by unlock()); stale loads and spurious compare-exchange failures break neither mutual exclusion nor an assertion, and no list node is accessed by a thread that does not happen-after its construction.", "quantifier": "every interleaving, every choice of the values read by relaxed loads and failing compare-exchanges, every number of threads", "why_tests_cant": "Missing acquire/release orders are invisible on x86 and rare elsewhere.", "anchors": ["include/async/mutex.hpp: detail::mutex"]}
{"id": "C52", "title": "shared_mutex excludes and asserts correctly under the C++ memory model", "statement": "For async::shared_mutex under the C++ memory model (stale loads, spurious failures): there is at most one exclusive owner, no shared owner beside an exclusive one, no assertion fails, and the wait list is accessed without data races.", "quantifier": "every interleaving, every choice of the values read, every number of threads", "why_tests_cant": "Needs stale values that current hardware rarely returns.", "anchors": ["include/async/mutex.hpp: detail::shared_mutex"]}
{"id": "C53", "title": "shared_mutex orders the memory accesses of its owners under the C++ memory model", "statement": "Every write by an exclusive owner of async::shared_mutex happens after all accesses by owners that unlocked before, and every read by a shared owner happens after all writes by exclusive owners that unlocked before.", "quantifier": "every interleaving, every choice of the values read, every number of readers and writers", "why_tests_cant": "The race appears only on weakly ordered hardware and under contention.", "anchors": ["include/async/mutex.hpp: shared_mutex::unlock, shared_mutex::unlock_shared"]}
{"id": "C54", "title": "Waits have no data races when operations outlive the calls on them", "statement": "For the cancellable waits of queue, recurring_event, future and post_ack under the C++ happens-before relation: if the client destroys an operation only after its receiver was notified and all calls on the operation returned, no two conflicting accesses to the operation (construction, members, list hooks, destruction) are unordered. If the client only waits for the notification, the only possible race is between the destruction and the calls on an operation whose event is cancelled, and that race exists. The acquire and the release order of the fetch_or in cancellation_resolver are both needed.", "quantifier": "every interleaving, every number of operations and threads, every element type, every set of accesses that a thread may know about when it calls the library", "why_tests_cant": "Data races are undefined behaviour that shows only with some compilers and weakly ordered processors, in rare schedules.", "anchors": ["include/async/cancellation.hpp: cancellation_resolver", "include/async/queue.hpp: queue", "include/async/recurring-event.hpp: recurring_event", "include/async/promise.hpp: get_operation", "include/async/post-ack.hpp: poll_operation"]}
{"id": "C55", "title": "Whoever is notified sees what was done before the notification was caused", "statement": "For queue, recurring_event, future and post_ack: everything that a thread did before it called put(x), set_value(), raise() or started a post happens before the notification of each receiver that is handed x, the value, the wake-up or that post; everything done before a cancel() that took over an operation happens before its notification; everything done before a locking call that preceded the start of the operation happens before its notification.", "quantifier": "every interleaving, every number of operations and threads, every element type, every set of accesses that a thread may know about when it calls the library", "why_tests_cant": "A missing happens-before edge is invisible on strongly ordered processors and in most schedules.", "anchors": ["include/async/cancellation.hpp: cancellation_resolver::transition_", "include/async/queue.hpp: emplace, get_operation", "include/async/recurring-event.hpp: raise", "include/async/promise.hpp: set_value", "include/async/post-ack.hpp: post_operation, poll_operation"]}
{"id": "C56", "title": "result<T>: the receiver may destroy the operation without a data race", "statement": "For the operation of result<T> under the C++ happens-before relation: conflicting accesses to its members, to the value, to cfp_ and to the coroutine frame (including their construction and destruction) are ordered. This holds if the operation is destroyed by a thread that knows about the notification and about the return of start(). It is false if the receiver destroys the operation in set_value(), as a co_await expression does: the relaxed exchange of start() on cfp_ is not ordered with the destruction of the frame. Release order of the exchange in final_suspend and the fence in start() are necessary and sufficient in the first case, acquire-release order of both exchanges in the second.", "quantifier": "every coroutine (any number of suspensions, resumed by any threads), every interleaving, every choice of the memory orders, every set of accesses that a thread may know about", "why_tests_cant": "Whether an atomic access and the deallocation of its memory are ordered is not observable on strongly ordered processors.", "anchors": ["include/async/result.hpp: promise_type::final_suspend, result_operation::start"]}
{"id": "C57", "title": "result<T>: the receiver sees what the coroutine did", "statement": "Everything that happens before the call of start() or before any action of the coroutine (its suspensions, resumptions and its return, on whatever threads) happens before the notification of the receiver of a result<T> operation, whether start() or the thread that finished the coroutine notifies it.", "quantifier": "every coroutine, every interleaving, every set of accesses that a thread may know about", "why_tests_cant": "A missing happens-before edge is invisible on strongly ordered processors and in most schedules.", "anchors": ["include/async/result.hpp: promise_type::final_suspend, result_operation::start"]}
{"id": "C58", "title": "wait_group under the C++ memory model: waits see what was done before done()", "statement": "When a wait on a wait_group is notified, done() was called for every unit whose add() happens before the start of the wait, and everything the callers did before these calls happens before the notification, even if loads of the counter return old values.", "quantifier": "every initial count, every number of add, done and wait calls on any threads with any views, every interleaving of the atomic accesses and every choice of old values for loads and failing compare-exchanges that the C++ memory model allows", "why_tests_cant": "Missing happens-before edges do not show on strongly ordered processors, and tests cannot enumerate stale reads.", "anchors": ["include/async/wait-group.hpp: done, add, wait_operation::start"]}
{"id": "C59", "title": "wait_group under the C++ memory model: waits complete exactly once", "statement": "No assertion fails and the counter does not underflow if done() is called once per unit; a wait is notified at most once, and exactly once when done() was called for every unit and the calls have returned, even if loads return old values.", "quantifier": "every initial count, every number of add, done and wait calls on any threads with any views, every interleaving and every choice of old values that the C++ memory model allows", "why_tests_cant": "Needs stale reads of the relaxed loads in done() and start(), which depend on the processor.", "anchors": ["include/async/wait-group.hpp: done, add, wait_operation::start"]}
{"id": "C60", "title": "barrier under the C++ memory model: waits see the arrivals of their phase", "statement": "When a wait on an arrival token completes because its phase is complete, everything that the callers of the arrivals of that phase did before they arrived happens before the completion.", "quantifier": "every expected count, every sequence of arrivals and waits on any threads, every interleaving and every choice of old values that the C++ memory model allows", "why_tests_cant": "A missing happens-before edge does not show on strongly ordered processors.", "anchors": ["include/async/barrier.hpp: do_arrive, async_wait"]}
{"id": "C61", "title": "barrier under the C++ memory model: tokens, phases and wake-ups", "statement": "With the relaxed accesses to seq_ a call still returns the number of complete phases, a wait that completes in start() or by the raise() of its phase completes after its phase is complete, and when the calls have returned every wait on a complete phase was notified exactly once.", "quantifier": "every expected count, every sequence of arrivals and waits on any threads that know the token, every interleaving and every choice of old values that the C++ memory model allows", "why_tests_cant": "Needs stale reads of a relaxed load made under another mutex than the store.", "anchors": ["include/async/barrier.hpp: do_arrive, async_wait", "include/async/recurring-event.hpp: raise, wait_if_operation::start"]}
{"id": "C62", "title": "sequenced_event under the C++ memory model: returned numbers publish the calls of raise()", "statement": "When a wait on a sequenced_event or next_sequence() returns a number, everything that the callers of raise() did before the calls counted by that number happens before the return, even if loads return old values.", "quantifier": "every number of raise, async_wait and next_sequence calls on any threads with any views, every interleaving of the atomic accesses and critical sections and every choice of old values that the C++ memory model allows", "why_tests_cant": "Missing happens-before edges do not show on strongly ordered processors, and tests cannot enumerate stale reads.", "anchors": ["include/async/sequenced-event.hpp: raise, next_sequence, async_wait"]}
{"id": "C63", "title": "sequenced_event under the C++ memory model: numbers and wake-ups", "statement": "If the caller of async_wait(n) knows that the number n was reached, the assertion holds, the wait returns a number that was reached and is not older than n (newer if it completes in start(), and counting the raise() that wakes it), it completes at most once, and it has completed when the calls have returned and more than n raises were made, even if loads return old values.", "quantifier": "every number of raise, async_wait and next_sequence calls on any threads with any views, every interleaving and every choice of old values that the C++ memory model allows", "why_tests_cant": "Needs stale reads of a load made under a mutex that the store does not hold.", "anchors": ["include/async/sequenced-event.hpp: raise, next_sequence, async_wait", "include/async/recurring-event.hpp: raise, wait_if_operation::start"]}
{"id": "C64", "title": "oneshot_primitive under the C++ memory model: waits see what happened before raise() and start()", "statement": "When a wait on a oneshot_primitive completes, raise() was called before, and everything that the callers of raise() and of start() did before these calls happens before the completion, even if loads and failing compare-exchanges return old values; the read of next_ by raise() is not a data race. All memory orders in the code are needed for this, except acquire by the successful compare-exchange.", "quantifier": "every number of waits on any threads with any views, every interleaving of the atomic accesses, spurious failures, and every choice of old values that the C++ memory model allows; for the second part every choice of memory orders", "why_tests_cant": "Missing happens-before edges do not show on strongly ordered processors, and tests cannot enumerate stale reads or weaker memory orders.", "anchors": ["include/async/oneshot-event.hpp: oneshot_primitive::raise, wait_operation::start"]}
{"id": "C65", "title": "oneshot_primitive under the C++ memory model: waits complete exactly once", "statement": "No failure is possible except the assertion against a second call of raise(); a wait is notified at most once; when raise() was called and all calls have returned, every wait that was started has been notified, even if start() reads old values.", "quantifier": "every number of waits on any threads with any views, every interleaving, spurious failures, and every choice of old values that the C++ memory model allows", "why_tests_cant": "Needs stale reads and particular interleavings of lock-free list insertion.", "anchors": ["include/async/oneshot-event.hpp: oneshot_primitive::raise, wait_operation::start"]}
{"id": "C66", "title": "when_all under the C++ memory model", "statement": "If not all senders complete before start() has returned, when_all has no data race even if the receiver destroys the operation as soon as it is notified, and whatever happens before the completion of a sender or before the call or return of start() happens before the notification of the receiver. Acquire and release of the senders' fetch_sub and release of the one in start() are needed for this; acquire in start() is not.", "quantifier": "every number of senders, every interleaving of their completions on any threads with any knowledge of each other, with and without assertions; for the second part every choice of memory orders", "why_tests_cant": "Missing happens-before edges do not show on strongly ordered processors, and tests cannot enumerate weaker memory orders.", "anchors": ["include/async/algorithm.hpp: when_all_operation::start, when_all_operation::receiver::set_value"]}
{"id": "C67", "title": "race_and_cancel under the C++ memory model", "statement": "If the operation is destroyed by a thread that knows that the receiver was notified and that the first completion call returned, race_and_cancel has no data race; whatever happens before the completion of any operation or before the call of start() happens before the notification of the receiver, without rules for the client. Both acquire and release of the fetch_add are needed for this.", "quantifier": "every number of functors, every interleaving of their completions and cancellations on any threads with any knowledge of each other; for the second part every choice of memory orders", "why_tests_cant": "Missing happens-before edges do not show on strongly ordered processors, and tests cannot enumerate weaker memory orders.", "anchors": ["include/async/algorithm.hpp: race_and_cancel_operation::start, race_and_cancel_operation::internal_receiver::set_value"]}
{"id": "C68", "title": "with_cancel_cb under the C++ memory model", "statement": "with_cancel_cb has no data race although the threads that call cancel(), the thread that runs the wrapped operation and the one that called start() know nothing about each other and the operation is destroyed as soon as the receiver is notified. Whatever happens before start(), before start or completion of the wrapped operation and before the return of the callback happens before the notification of the receiver; whatever happens before start() and before one of the calls of cancel() happens before the call of the callback. Acquire and release of both fetch_sub() of cancel_state_ are needed for this.", "quantifier": "with and without token, every interleaving of start(), cancel() calls, completion of the wrapped operation and callback on any threads; no rules for the client; for the last part every choice of the four memory orders", "why_tests_cant": "Missing happens-before edges do not show on strongly ordered processors, and tests cannot enumerate weaker memory orders.", "anchors": ["include/async/cancellation.hpp: with_cancel_cb_operation::start, with_cancel_cb_operation::intermediate_receiver::set_value, with_cancel_cb_operation::cancel_handler, cancellation_observer"]}
{"id": "C69", "title": "co_await: a program of coroutines behaves like the sequential program", "statement": "A detached coroutine that awaits senders and calls coroutines of type result<T>, to any depth, does what the same program does if every co_await is a blocking call: operations are started in program order, each one after the awaited one before it completed and with the values it delivered, and the program ends at most once with the value of the sequential program. No continuation is lost: if all threads have returned, the program has ended or it waits for a pending operation. At any time at most one thread executes the bodies of its coroutines, whichever threads complete the operations, also if an operation completes before start() or await_suspend() returned on the thread that started it. No awaiter, operation or coroutine frame is used outside of its lifetime, no coroutine is resumed that is not suspended, and no empty result is read.", "quantifier": "all programs (finite or infinite trees of co_await, co_return, calls and dropped calls), all values, all threads on which operations complete, inside of start() or later, all interleavings; no rules for the client except that an operation completes at most once", "why_tests_cant": "Each co_await has several races between await_suspend(), start(), final_suspend and the completion; they compose over arbitrarily nested coroutines.", "anchors": ["include/async/basic.hpp: sender_awaiter, detached", "include/async/result.hpp: result, result_operation"]}
{"id": "C70", "title": "co_await: coroutine frames are destroyed exactly once and never leaked", "statement": "Every coroutine frame is destroyed at most once, also that of a coroutine that is dropped without being awaited, and when the program is done all its coroutine frames have been destroyed.", "quantifier": "all programs, all interleavings, as for C69", "why_tests_cant": "Leaks and double destruction may depend on which thread wins the races of each nested coroutine.", "anchors": ["include/async/basic.hpp: sender_awaiter, detached", "include/async/result.hpp: result::~result, result_operation"]}
{"id": "C71", "title": "co_await in a loop needs bounded stack", "statement": "A coroutine that awaits operations in a loop needs a bounded amount of stack, also if the operations complete immediately.", "quantifier": "all programs and interleavings", "why_tests_cant": "Loops in tests are short; the overflow depends on how often operations complete immediately in a row.", "anchors": ["include/async/basic.hpp: sender_awaiter::await_suspend", "include/async/result.hpp: result_operation::start", "include/async/execution.hpp: start_inline_cpo"]}
{"id": "C72", "title": "suspend_indefinitely under the C++ memory model", "statement": "suspend_indefinitely has no data race although the threads that call cancel() know nothing about each other or about the thread that called start(), and the operation is destroyed as soon as the receiver is notified. Whatever happens before start() happens before the notification of the receiver; so does whatever happens before some call of cancel() of one of the events, and before all calls of cancel() of these events that precede start(). Acquire and release of the fetch_or() and of the fetch_sub() of st_ are needed for this.", "quantifier": "any number of tokens, empty or not, of the same or of different events; every interleaving of start() and cancel() calls on any threads; no rules for the client; for the last part every choice of the four memory orders", "why_tests_cant": "Missing happens-before edges do not show on strongly ordered processors, and tests cannot enumerate weaker memory orders, token lists and interleavings.", "anchors": ["include/async/cancellation.hpp: suspend_indefinitely_operation::start, suspend_indefinitely_operation::transition_, cancellation_observer, cancellation_event::cancel"]}
{"id": "C73", "title": "promise / future under the C++ memory model", "statement": "The shared state of a promise and its futures has no data race although the threads that use the handles know nothing about each other; it is never used after its destruction. Whatever happens before set_value() happens before the notification of a get that completes with the value, and whatever happens before the start of a get happens before its notification. Whatever happens before any call on the state happens before its destruction by the last handle. Acquire and release of the decrement of the reference count are needed for this; those of the increment are not.", "quantifier": "any number of handles, copies, moves, swaps, assignments, gets and cancellations; every interleaving of calls on any threads that keep the client rules (no call overlaps with one that modifies the same handle, a future is not modified while a get on it is in progress); for the last part every choice of the four memory orders", "why_tests_cant": "Missing happens-before edges do not show on strongly ordered processors; the destruction races with the last use only in rare interleavings, and tests cannot enumerate weaker memory orders.", "anchors": ["include/async/promise.hpp: detail::promise_state, promise_base, future::operator=, future::get_operation, promise::set_value"]}
{"id": "C74", "title": "post_ack under the C++ memory model", "statement": "post_ack_mechanism has no data race although the posters, the agents and the owners of the handles know nothing about each other, and a post operation is destroyed as soon as its receiver is notified. Whatever happens before post() happens before poll() returns the handle and before the object is read through it. Whatever happens before the reads, acknowledgements and detach()es of a post happens before the notification of its receiver, and no agent uses the post afterwards. Acquire and release of the fetch_sub() of ack() and the acquire of the fetch_sub() of detach() are needed for this; the release of the fetch_sub() of detach() is not.", "quantifier": "any number of agents, posts, polls, handles and cancellations; every interleaving of calls on any threads that keep the client rules (calls on one agent are ordered and none is made during its poll, a handle is used by one thread at a time and not after ack(), a post is destroyed after its receiver was notified); for the last part every choice of the four memory orders", "why_tests_cant": "Missing happens-before edges do not show on strongly ordered processors; the destruction of a post races with the last read only in rare interleavings, and tests cannot enumerate weaker memory orders.", "anchors": ["include/async/post-ack.hpp: post_ack_mechanism, post_operation::start, post_ack_handle::ack, post_ack_agent::attach, post_ack_agent::detach, poll_operation::start, poll_operation::resume"]}
{"id": "C75", "title": "cancellation_event, cancellation_callback and cancellation_observer under the C++ memory model", "statement": "cancellation_event, cancellation_callback and cancellation_observer have no data race although the threads that call cancel(), construct, unbind, set or reset callbacks and observers and ask for the request know nothing about each other. Whatever happens before a callback is constructed or an observer is set happens before the call of its functor, and so does whatever happens before the cancel() that causes the call. Whatever happens before cancel() happens before the return of a later is_cancellation_requested() (also one called by a functor), constructor of a callback, try_set(), try_reset() or force_set().", "quantifier": "any number of events, callbacks, observers and calls of cancel(), destruction and reset() of events included; every interleaving of calls on any threads that keep the client rules", "why_tests_cant": "Missing happens-before edges do not show on strongly ordered processors; cancel() walks its own list of callbacks without the mutex while other callbacks are unbound and destroyed, and tests meet only a few of the interleavings.", "anchors": ["include/async/cancellation.hpp: cancellation_event, cancellation_token::is_cancellation_requested, cancellation_callback, cancellation_observer"]}
{"id": "C76", "title": "run(), detach() and spawn() under the C++ memory model", "statement": "An operation may complete on any thread. Whatever happens before its completion happens before run() returns, before the continuation of detach() is called, before the receiver of spawn() is notified and before the control block is freed; whatever happens before the call of run(), detach() or spawn() happens before the completion; there is no data race.", "quantifier": "every operation that completes at most once, at any time after it was started, on any thread; every interleaving", "why_tests_cant": "The flag of run() is a plain bool: the race shows only if the compiler or the processor exploits it, and only if the completion overlaps with the check.", "anchors": ["include/async/basic.hpp: run, detach_with_allocator, spawn_with_allocator, detach_details_::control_block, spawn_details_::control_block"]}
{"id": "C77", "title": "post_ack_handle is a unique owner", "statement": "Moving, swapping and assigning post_ack_handle objects never duplicates a handle and never loses one: at any time at most one variable holds it, and one does until ack() is called; destroying or overwriting a variable with an unacknowledged handle fails an assertion. Through whatever variables the handles pass, each is acknowledged at most once and dereferencing it yields the posted object. operator bool is true for exactly the variables with a handle, and such a handle can be dereferenced.", "quantifier": "every program of constructions, moves, swaps, assignments, destructions, ack(), dereferencing, on any number of variables, interleaved with any calls on agents and posts", "why_tests_cant": "Assertions are compiled out in release builds; a lost or duplicated acknowledgement shows only as a post that never completes, or completes too early, and a dangling handle still reads plausible data.", "anchors": ["include/async/post-ack.hpp: post_ack_handle, swap, ~post_ack_handle, operator=, ack, operator bool, operator->, operator*"]}
{"id": "C78", "title": "generator objects own their coroutine uniquely", "statement": "Moving and assigning generator objects never duplicates and never loses a coroutine: no two variables stand for the same coroutine, and a coroutine is destroyed exactly once, at the moment when the variable that stands for it is destroyed or overwritten by another one (self-assignment changes nothing). An operation that is created from x.next() runs the coroutine that x stood for when next() was called, even if it was moved since then, and gets its values in order. The only misuse that the code does not survive is next() of a variable that was moved from, and next() after the end of the coroutine.", "quantifier": "every program of coroutine calls, moves, assignments, destructions and next() on any number of variables and coroutines, interleaved with any steps of the coroutines, where each coroutine is destroyed only while no next() operation runs", "why_tests_cant": "A double destruction or a leaked frame corrupts memory silently, and depends on which variable was moved where while operations are pending.", "anchors": ["include/async/generator.hpp: generator(generator &&), operator=, ~generator, next, next_sender, next_operation"]}
{"id": "C79", "title": "wait_group with cancellation under the C++ memory model", "statement": "Even if the loads of the counter in start(), try_cancel() and done() and its failing compare-exchanges return old values: a wait is notified at most once, and exactly once if its event is cancelled or if at some point done() was called for all units; no call hangs; true is reported only if done() was called for every unit whose add() happens before the start of the wait, false only if a cancellation was requested; after the end of its waits no callback is left in an event; the assertion in done() holds and the counter does not underflow; and for clients that obey the rules of C04 and C18 nothing fails at all.", "quantifier": "every initial count, every number of add, done, wait and cancel calls on any threads, every knowledge of the callers, every interleaving of the steps, and every choice of old values that coherence allows", "why_tests_cant": "Stale loads do not occur on strongly ordered processors, and their combinations with cancellation races cannot be enumerated by tests.", "anchors": ["include/async/wait-group.hpp: wait_operation::start, try_cancel, add, done", "include/async/cancellation.hpp: cancellation_resolver"]}
{"id": "C80", "title": "wait_group with cancellation: visibility and race freedom", "statement": "When a wait is notified that it is over, everything that was done before done() was called for each unit whose add() happens before the start of the wait happens before the notification, although the loads of the counter are relaxed and may return old values, the wait may take the fast path, and operations may be cancelled concurrently. A cancelled wait sees what was done before cancel(). There are no data races on the operations and their intrusive hooks unless a client destroys a cancelled operation early (C04). The acquire and the release order of the decrements are both needed.", "quantifier": "every initial count, every number of add, done, wait and cancel calls on any threads, every happens-before relation between the callers, every interleaving of the steps, every choice of old values that coherence allows, and every choice of the memory orders of the decrements", "why_tests_cant": "Missing synchronization does not show on strongly ordered processors, and a test sees one interleaving and one set of loaded values at a time.", "anchors": ["include/async/wait-group.hpp: wait_operation::start, try_cancel, add, done", "include/async/cancellation.hpp: cancellation_resolver"]}
{"id": "C81", "title": "Intrusive lists only ever link existing, distinct operations", "statement": "The lists of a cancellable wait are used correctly: no list operation of queue, recurring_event, wait_group, promise, post_ack or cancellation_event (push_back, erase, pop_front, splice, including the local lists of raise(), done(), wake(), post and cancel()) touches an operation that was destroyed, even if receivers destroy their operation in set_value; no hook is linked while it is linked already, only linked hooks are unlinked, and no operation is destroyed while one of its two hooks is linked. Once its receiver was notified, an operation is in no list.", "quantifier": "all schedules of any number of operations, cancellation events and threads, clients that destroy operations at once or later, no other rule for the clients (double set_value, too many done(), ... included)", "why_tests_cant": "A stale neighbour pointer only shows if the memory of a destroyed neighbour is re-used at the right moment; which nodes are neighbours depends on the interleaving of any number of waits, wake-ups and cancellations.", "anchors": ["include/async/cancellation.hpp: cancellation_resolver::listen, transition_, cancellation_event::cancel", "include/async/queue.hpp: emplace, try_cancel, get_operation::start", "include/async/recurring-event.hpp: raise, try_cancel", "include/async/wait-group.hpp: done, try_cancel", "include/async/promise.hpp: wake, try_cancel", "include/async/post-ack.hpp: post_operation::start, try_cancel"]}
{"id": "C82", "title": "When a cancellation_event may be destroyed", "statement": "A cancellation_event may be destroyed once the receivers of all waits with a token of it were notified and start() and complete() of these waits have returned, even while calls of cancel() on it are still running: the destructor finds no registered callback, nobody accesses the event afterwards, and everything else happens as if it were still there. It is not enough that the receivers were notified: if cancel() notifies the receiver while complete() is about to unregister the callback, complete() locks the mutex of the destroyed event. This is the only way: without a call of cancel() the event may be destroyed as soon as the receivers were notified.", "quantifier": "all schedules of any number of waits on queue, recurring_event, wait_group, future and post_ack, of cancellation events and threads; clients that destroy operations and events at once or later", "why_tests_cant": "The access to the destroyed event needs a completion, a cancellation and the destruction of the event in a window of a few instructions, and locking a mutex in freed memory often goes unnoticed; that there is no other such window is a statement about all interleavings.", "anchors": ["include/async/cancellation.hpp: ~cancellation_event, cancellation_event::cancel, cancellation_resolver::listen, transition_"]}
{"id": "C83", "title": "When a wait primitive may be destroyed", "statement": "A queue and a recurring_event may be destroyed as soon as the receivers of all waits on it were notified, even while the put(), raise() or cancel() calls that notify them are still running; a wait_group and a oneshot_event as soon as, moreover, the counter is zero, if done() is called at most once per unit. Nobody accesses the primitive afterwards, and everything else happens as if it were still there. A sequenced_event or a barrier must be kept until all calls of raise() or arrive() are past the inner raise(): it is refuted that they may be destroyed when all waits were notified.", "quantifier": "all schedules of any number of waits, wake-ups, cancellations, wrapped operations (wait_in_group) and threads, clients that destroy operations at once or later, all values and initial counts", "why_tests_cant": "The late access happens in a window of a few instructions between publishing a number and waking waiters and needs a waiter that starts, completes and destroys the object in that window; the absence of such accesses for the other primitives is a statement about all interleavings.", "anchors": ["include/async/queue.hpp: emplace, get_operation", "include/async/recurring-event.hpp: raise", "include/async/wait-group.hpp: done, wait_in_group", "include/async/sequenced-event.hpp: raise, async_wait", "include/async/barrier.hpp: do_arrive, async_wait", "include/async/oneshot-event.hpp: oneshot_event"]}
{"id": "C84", "title": "queue: its own memory is free of data races; empty()", "statement": "The functions of async::queue never race on its item buffer and its list of waiting gets. It is refuted that this includes empty(): it reads the buffer without the mutex, so that empty() on one thread and put() on another one are a data race, in either order. If put(), emplace(), maybe_get(), empty() and the starts of async_get() are made by one thread, or with a mutex of the client held, there is no data race (while cancellations and completions happen anywhere). Then empty() tells the truth: a maybe_get() that follows, with no put, get or start in between, returns null exactly if empty() returned true; and it returns true exactly if all items put so far were handed out.", "quantifier": "all item types, all schedules of any number of gets, puts, cancellations and calls of empty(), all threads with arbitrary knowledge of each other", "why_tests_cant": "A data race on a list header usually goes unnoticed on common hardware, and the absence of races is a statement about all executions.", "anchors": ["include/async/queue.hpp: empty, emplace, maybe_get, try_cancel, get_operation::start"]}
{"id": "C85", "title": "The last owner may destroy a mutex", "statement": "The owner that made the last call of unlock() may destroy the mutex as soon as that call has returned, if the receivers of all async_lock() operations were notified: no other call accesses the mutex any more, in particular none of the earlier unlock() calls that passed ownership on, although nobody waits for them to return. The same holds for shared_mutex, if the last call is unlock() by an exclusive owner and no try_lock_shared() call is in flight (the last call of unlock_shared() gives no such guarantee).", "quantifier": "all schedules of any number of lock operations, tries and unlock calls, including spurious failures of compare-exchange", "why_tests_cant": "The statement is about the absence of late accesses by slow threads in all interleavings; a late access would be a use after free in a window of a few instructions.", "anchors": ["include/async/mutex.hpp: mutex::unlock, lock_operation::start", "include/async/mutex.hpp: shared_mutex::unlock, unlock_shared, try_lock_shared"]}
{"id": "C86", "title": "sequenced_event with cancellation under the C++ memory model", "statement": "A sequenced_event whose waits may be cancelled works under the C++ memory model, where loads of the number may return old values. A wait that returns x, whether it was woken, cancelled or completed in start(), sees all that was done before the calls of raise() that made the numbers up to x; so does a call of next_sequence() that returns more than x. This needs release in raise() and acquire in the loads, and nothing else, although there is a mutex too. A wait for t returns a number that was reached, at least t, greater than t if it completes in start(), and not older than the raise() that wakes it. When no call is running, each wait for a number that was passed has completed. There is no data race, no use after free and no failed assertion, if the caller of async_wait(t) knows that the number t was reached and operations are destroyed after all calls on them have returned; a client that destroys operations earlier gets a failure only if it cancels them, and never a failed assertion.", "quantifier": "all schedules of any number of raise(), next_sequence(), async_wait() and cancel() calls, all values that loads may return, all threads with arbitrary knowledge of each other", "why_tests_cant": "Stale loads that the memory model allows do not occur on common hardware, and cancellation races with raise() in windows of a few instructions.", "anchors": ["include/async/sequenced-event.hpp: raise, next_sequence, async_wait", "include/async/recurring-event.hpp: async_wait_if, raise", "include/async/cancellation.hpp: cancellation_resolver"]}
{"id": "C87", "title": "The last owner may destroy a mutex, C++ memory model", "statement": "Under the C++ memory model, the owner that made the last call of unlock() may destroy the mutex as soon as that call has returned, if the receivers of all async_lock() operations were notified and all owners have called unlock(): every access to the mutex that any call of start(), try_lock() (successful) or unlock() has made happens before that return, although nobody waits for these calls to return and the threads need not synchronize otherwise.", "quantifier": "all executions allowed by the memory orders of the code, any number of operations, tries and unlock calls, threads with arbitrary knowledge of each other", "why_tests_cant": "The statement is about the happens-before order of the accesses of all other threads to the object; an unordered access shows up only on weakly ordered hardware or as a use after free in a window of a few instructions.", "anchors": ["include/async/mutex.hpp: mutex::unlock, try_lock, lock_operation::start"]}
{"id": "C88", "title": "The last owner may destroy a shared_mutex, C++ memory model", "statement": "Under the C++ memory model, an exclusive owner of a shared_mutex that made the last call of unlock() may destroy it as soon as that call has returned, if the receivers of all operations were notified and all owners have unlocked: every access to the shared_mutex by any call of start(), try_lock() (successful), unlock() or unlock_shared() happens before that return.", "quantifier": "all executions allowed by the memory orders of the code, any number of operations in both modes, tries and unlock calls, threads with arbitrary knowledge of each other", "why_tests_cant": "A reader's last access that is not ordered before the destruction shows up only on weakly ordered hardware.", "anchors": ["include/async/mutex.hpp: shared_mutex::unlock, unlock_shared, try_lock, lock operations"]}
{"id": "C89", "title": "A type-erased callable behaves like the functor in it", "statement": "Whenever a callback is called, or set_value() of an any_receiver is called, the functor (receiver) that was put into it runs with the same argument, result and effect as if it were called directly: on the state left by the previous calls through the same object, where a copy of a callback or any_receiver starts with the state of the original and is independent from then on.", "quantifier": "all functor classes (any function from state and argument to state and result), all numbers of callback and any_receiver objects, all sequences of construction, copy, assignment and calls", "why_tests_cant": "Tests use captures by reference or pointer, for which losing the changes that a call makes in the functor is invisible.", "anchors": ["include/async/basic.hpp: any_receiver", "include/async/basic.hpp: callback"]}
{"id": "C90", "title": "Failures of callback and run_queue_item", "statement": "Calling a callback fails exactly if it is null (default-constructed, or copied from a null one), and operator bool says whether it is. run_queue_item::arm() fails exactly if the item has been armed before or the given callback is null, so that an item is armed at most once. Nothing else fails.", "quantifier": "all functor classes, all numbers of objects, all sequences of construction, copy, assignment, calls and arm()", "why_tests_cant": "The claim is about every history of copies and assignments that leads to a call.", "anchors": ["include/async/basic.hpp: callback::operator bool, callback::operator()", "include/async/basic.hpp: run_queue_item::arm"]}
{"id": "C91", "title": "Nested algorithms behave like the structured concurrent program", "statement": "Let an expression be built from arbitrary senders by any nesting of invocable, transform, ite, repeat_while, let, sequence, when_all and race_and_cancel. When its receiver is notified, the sequence of starts and completions of senders, calls and returns of user functions and cancellations of tokens is a complete execution of the structured concurrent program that the expression denotes: sequence runs one after the other, when_all interleaves its senders, race_and_cancel interleaves its senders and one of them, after its completion, cancels the tokens of all others; the result is the one of that execution. At any earlier time, what happened is the beginning of such an execution. Excluded are executions in which the last sender of a when_all completes before its start() has returned (C40) or the last sender of a race_and_cancel completes while the first is still cancelling the others (C42); without when_all and race_and_cancel nothing can fail.", "quantifier": "all expressions of any depth and width, all user functions, all results, all interleavings of completions on any threads", "why_tests_cant": "A test runs a fixed expression with a few interleavings; the claim is about how the algorithms compose.", "anchors": ["include/async/algorithm.hpp: when_all_operation, race_and_cancel_operation, sequence_operation, repeat_while_operation, let_operation, ite_operation, value_transform_receiver, invocable_operation"]}
{"id": "C92", "title": "Structured concurrency of nested algorithms", "statement": "For any such expression, the receiver is notified at most once; when it is notified, every sender that was started anywhere inside of the expression has completed and every user function has returned, and nothing is started or called afterwards; conversely, if all senders that were started have completed, all user functions have returned and the library has no step left to do, the receiver has been notified.", "quantifier": "all expressions of any depth and width, all user functions, all results, all interleavings of completions on any threads", "why_tests_cant": "An operation that outlives the expression it belongs to, or a lost completion, shows up only for particular interleavings of particular nestings.", "anchors": ["include/async/algorithm.hpp: when_all_operation::receiver::set_value, when_all_operation::start", "include/async/algorithm.hpp: race_and_cancel_operation::internal_receiver::set_value, race_and_cancel_operation::start", "include/async/algorithm.hpp: sequence_operation::do_step, repeat_while_operation::loop_"]}
{"id": "C93", "title": "Nested algorithms publish what happened inside", "statement": "For any expression built from invocable, transform, ite, repeat_while, let, sequence, when_all and race_and_cancel: under the C++ memory model, every start and completion of a sender and every call and return of a user function inside of the expression happens before the notification of its receiver, if only each sender orders its own start before its completion. Except for the excluded failures of C40 and C42 the executions are those of C91.", "quantifier": "all expressions of any depth and width, all interleavings, threads that know no more than the memory orders of the code guarantee", "why_tests_cant": "A missing acquire or release in one of the counters is invisible on strongly ordered hardware and under test schedulers.", "anchors": ["include/async/algorithm.hpp: when_all_operation::receiver::set_value (ctr_), race_and_cancel_operation::internal_receiver::set_value (n_done_)", "include/async/algorithm.hpp: sequence_operation, repeat_while_operation, let_operation, ite_operation, value_transform_receiver, invocable_operation"]}
{"id": "C94", "title": "wait_group: who is notified may destroy it, under the C++ memory model", "statement": "A wait_group (or a oneshot_event) may be destroyed by a thread that knows that a wait was notified whose start() all calls of add() happen before, and that knows of the starts of the other waits; it does not have to wait for the calls of done() to return. All accesses to the counter, the mutex and the list by any call of add(), done() or start() happen before the destruction, although the counter is read and decremented outside of the lock and loads may return old values, and nobody accesses the group afterwards, not even the loop that is still notifying other waits. Both memory orders of the decrements are needed for this.", "quantifier": "every initial count, every number of add, done and wait calls on any threads with any views, every interleaving of the atomic accesses, every choice of old values for loads and failing compare-exchanges, every knowledge of the destroying thread that obeys the rule, and every choice of the memory orders", "why_tests_cant": "A missing happens-before edge between the last access of another thread and the destruction does not show on strongly ordered processors, and the window between the decrement and the return of done() is a few instructions wide.", "anchors": ["include/async/wait-group.hpp: done, add, wait_operation::start", "include/async/oneshot-event.hpp: oneshot_event"]}
{"id": "C95", "title": "oneshot_primitive: who is notified may destroy it, under the C++ memory model", "statement": "A oneshot_primitive may be destroyed by a thread that knows for every wait that its start() has returned or that it was notified, and that knows of raise() directly or by the notification of any wait; it does not have to wait for raise() to return, nor for the notification of the other waits. All accesses to the atomic state by raise() and by the compare-exchange loops of start() happen before the destruction, although loads and failing compare-exchanges may return old values, and nobody accesses the primitive afterwards, not even the raise() that is still notifying other waits, which are notified all the same. All memory orders of the code but the acquire of the successful compare-exchange are needed for this.", "quantifier": "every number of waits and calls of raise on any threads with any views, every interleaving of the atomic accesses, every choice of old values for loads and failing or spuriously failing compare-exchanges, every knowledge of the destroying thread that obeys the rule, and every choice of the memory orders", "why_tests_cant": "A missing happens-before edge between the accesses of start() or raise() and the destruction does not show on strongly ordered processors, and the window in which raise() still walks its list after the first notification is a few instructions wide.", "anchors": ["include/async/oneshot-event.hpp: oneshot_primitive::raise, wait_operation::start, wait_operation::complete"]}
{"id": "C96", "title": "mutex and oneshot_primitive behave under the C++ memory model as if the atomic accesses were interleaved", "statement": "For mutex, the sequences of calls, results and notifications that are possible under the C++ memory model, where loads and failing compare-exchanges may return old values, are exactly those that are possible if the atomic accesses are interleaved and only owners unlock; the same holds for the executions after which no call is in flight. Hence the order of service (operations that suspended acquire in the order of suspension, try_lock() succeeds and an operation acquires only after all that suspended before it was started) and the absence of lost wake-ups, proved for interleavings, hold with the memory orders of the code as well. For oneshot_primitive every execution under the C++ memory model, also one that fails because raise() is called twice, has the calls and notifications of an interleaving.", "quantifier": "every number of operations and calls on any threads with any views, every execution of the weak-memory models, every choice of old values and spurious failures, and for mutex every interleaving execution in which owners unlock", "why_tests_cant": "Whether relaxed loads and failing compare-exchanges that return old values add behaviours is a statement about all executions of two infinite transition systems; processors with strong ordering never show the old values.", "anchors": ["include/async/mutex.hpp: detail::mutex", "include/async/oneshot-event.hpp: oneshot_primitive"]}
{"id": "C97", "title": "wait_in_group under the C++ memory model", "statement": "Operations wrapped by wait_in_group may be started, complete and be destroyed on any threads, together with any other use of the group. If a wrapped operation is destroyed by a thread that knows that its receiver was notified, and the group by the rule of C94 (even while receivers of wrapped operations are still to be notified), then no thread uses a destroyed operation or group, no access races with a destruction, and no assertion of the group fails. When a wait on the group is notified, every wrapped operation whose start happens before the start of the wait has completed, and everything that its original operation did happens before the notification. The receiver of a wrapped operation is notified exactly once if the original operation completes, after done() has returned, and sees what the original operation did. A wait is notified at most once, and exactly once if all wrapped operations complete and done() is called for all other units. The acquire and the release of the decrements are needed for this, those of add() are not.", "quantifier": "every initial count, every number of wrapped operations, waits and other units on any threads with any views, every interleaving of the atomic accesses, every choice of old values for loads and failing compare-exchanges, every knowledge of the destroying threads that obeys the rules, and every choice of the memory orders", "why_tests_cant": "The visibility guarantee fails only on weakly ordered processors and in particular orders of completions on different threads; the window between the decrement in done() and the notification of the receiver is a few instructions wide.", "anchors": ["include/async/wait-group.hpp: wait_in_group_details_::sender_::operation_, wait_group::done, wait_group::add"]}
{"id": "C98", "title": "wait_in_group: waiting for the group is enough to destroy the wrapped operations", "statement": "A client that starts operations wrapped by wait_in_group and waits for the group may destroy the wrapped operations when the wait was notified, since all accesses to them happen before that.", "quantifier": "every number of wrapped operations and waits on any threads, every interleaving and every choice of old values", "why_tests_cant": "The use after free needs the waiter to run between the decrement in done() and the next statement of the completing thread, or to destroy the operation from inside of its notification.", "anchors": ["include/async/wait-group.hpp: wait_in_group_details_::sender_::operation_::receiver_::set_value"]}
{"id": "C99", "title": "Members of nested operations are used only while they are alive", "statement": "Take any nesting of transform, lambda, with_cancel_cb, wait_in_group, ite, let, repeat_while, sequence, when_all and race_and_cancel around senders of a client. If no functor, connect() or destructor below race_and_cancel uses a token that race_and_cancel passed to it, and no connect() or destructor below with_cancel_cb calls get_env(), then from connect() over start() and the completion to the destructor of the outermost operation, every member of every operation is used only between its initialization and its destruction, no member is initialized twice or destroyed twice, every call of get_env() in connect(), start() or a destructor returns the environment of the receiver of the client, and in the end all members are destroyed. Below repeat_while, sequence and (in connect) ite and let, which connect their senders in start(), there is no restriction.", "quantifier": "every nesting of any depth with any numbers of children, iterations and choices, every environment, and every choice of the phases in which each sender of the client calls get_env() and uses its tokens", "why_tests_cant": "Uses of uninitialized or destroyed members on the stack are silent in a normal build, and the number of nestings is unbounded.", "anchors": ["include/async/algorithm.hpp: constructors, destructors and get_env() of all operations", "include/async/cancellation.hpp: with_cancel_cb_operation", "include/async/wait-group.hpp: wait_in_group_details_::sender_::operation_"]}
{"id": "C100", "title": "Any client may use tokens and get_env() in every phase", "statement": "In every nesting of the algorithms, functors of race_and_cancel may use their token when they are called, and senders may use their tokens and call get_env() on their receiver in connect(), in start() and in the destructor of the operation: all members that are accessed by this are alive.", "quantifier": "every nesting of any depth, and every choice of the phases in which senders and functors of the client call get_env() and use their tokens", "why_tests_cant": "The accesses hit memory of the operation before its construction or after its destruction, which is silent in a normal build.", "anchors": ["include/async/algorithm.hpp: race_and_cancel_operation", "include/async/cancellation.hpp: with_cancel_cb_operation"]}
{"id": "C101", "title": "Nested operations that were never started can be destroyed", "statement": "An operation of any nesting of the algorithms that is connected and destroyed without start() uses its members only while they are alive, destroys every member exactly once, and get_env() in connect() and in destructors returns the environment of the receiver of the client, if and only if no let() is among the operations that are connected at once (that is, not below ite, repeat_while or sequence), no functor, connect() or destructor below race_and_cancel uses a token that race_and_cancel passed to it, and no connect() or destructor below with_cancel_cb calls get_env().", "quantifier": "every nesting of any depth with any numbers of children, every environment, and every choice of the phases in which each sender of the client calls get_env() and uses its tokens", "why_tests_cant": "Tests rarely destroy operations without start(), and uses of destroyed members are silent in a normal build.", "anchors": ["include/async/algorithm.hpp: constructors and destructors of all operations", "include/async/cancellation.hpp: with_cancel_cb_operation", "include/async/wait-group.hpp: wait_in_group_details_::sender_::operation_"]}
{"id": "C102", "title": "Laws of nested algorithms", "statement": "Nested sequence() flattens, sequence() of one sender is that sender, transform() of sequence(), ite() or let() moves to the sender that produces the value, senders after an ite() or let() move into it, and when_all() may be reordered and flattened: expressions that differ by these laws, applied anywhere inside, are the same structured program, so each execution of the code for one of them that notifies the receiver is one of the other program, and every execution is the beginning of one. Without when_all() and race_and_cancel(), the code for an expression has exactly the complete executions of the structured program, so that the code for two such expressions has the same complete executions: user functions called with the same arguments, operations started and completed and the receiver notified, in the same order and with the same values.", "quantifier": "every pair of expressions of any depth and width that differ by any number of applications of the laws, every value returned by user functions and operations, every schedule", "why_tests_cant": "A test compares two fixed expressions on a few inputs; the laws are about all expressions, all contexts and all loops.", "anchors": ["include/async/algorithm.hpp: transform(), ite(), repeat_while(), let(), sequence(), when_all(), race_and_cancel()"]}
{"id": "C103", "title": "Sequential nestings are deterministic", "statement": "What the code for a nesting of invocable(), transform(), ite(), repeat_while(), let(), sequence() and senders of the client does depends only on the answers of its environment (the values that user functions return and operations complete with), not on the schedule: of two executions, one is the beginning of the other, or the first event in which they differ is a user function that returns, or an operation that completes with, different values. Complete executions with the same answers are equal, including the value that the receiver gets.", "quantifier": "every expression without when_all() and race_and_cancel() of any depth and width, every pair of executions with any schedules and answers", "why_tests_cant": "A test compares a few runs; determinism is about all pairs of executions of all expressions.", "anchors": ["include/async/algorithm.hpp: invocable(), transform(), ite(), repeat_while(), let(), sequence()"]}
{"id": "C104", "title": "Nestings of the algorithms do not livelock", "statement": "In every reachable state of a nesting of the algorithms, the number of steps that the library can take without another answer of its environment (a user function that returns, an operation that completes) is bounded, and after start() these steps lead to the notification of the receiver or to a user function or operation that has yet to answer, or they fail. Without when_all() and race_and_cancel() they do not fail. So if the environment answers everything it is asked, and is asked finitely often, the receiver is notified.", "quantifier": "every expression of any depth and width including when_all() and race_and_cancel(), every reachable state, every schedule of the steps of the library", "why_tests_cant": "A livelock shows as a test that hangs for one expression and schedule; boundedness is about all of them.", "anchors": ["include/async/algorithm.hpp: all operations"]}
{"id": "C105", "title": "repeat_while() needs bounded stack", "statement": "repeat_while(), which has a loop for the case that the operation of an iteration completes immediately, needs a bounded amount of stack, whatever the number of iterations.", "quantifier": "every nesting of the algorithms without when_all() and race_and_cancel(), every execution, every number of iterations", "why_tests_cant": "Tests run few iterations, or compilers turn some of the calls into jumps; the stack overflows only in long loops.", "anchors": ["include/async/algorithm.hpp:250-307 repeat_while_operation", "include/async/execution.hpp:63-77 start_inline_cpo"]}
{"id": "C106", "title": "In an event loop, nestings with when_all() do not fail if each when_all() waits", "statement": "Consider a nesting of the algorithms without race_and_cancel() in which each when_all() has at least one sender that waits for an operation of the client before it completes, whatever user functions return. If operations of the client complete only when no call of start() of a when_all() is running (as in a program with one thread whose operations complete in its event loop), then no assertion fails and nothing is used after it was destroyed, even though other senders of the when_all() may complete inside of start(); and after start() the library always gets to the notification of the receiver or to a user function or operation that has yet to answer.", "quantifier": "every such expression of any depth and width, including when_all() inside loops and inside other when_all()s, every schedule of the steps of the library, all results of user functions and operations", "why_tests_cant": "Whether the assertion of when_all() fails depends on which of its senders complete inside of start(), which depends on results of user functions and on nesting; tests try a few.", "anchors": ["include/async/algorithm.hpp: when_all_operation::start, when_all_operation::receiver::set_value, all other operations"]}
