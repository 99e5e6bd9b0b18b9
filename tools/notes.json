{
 "C01": {
  "status": "proved",
  "note": "Proved for all cancellable waits: queue::async_get, recurring_event (hence sequenced_event and barrier), wait_group (hence oneshot_event), future::get and post_ack_agent::poll."
 },
 "C02": {
  "status": "proved",
  "note": "Proved for all cancellable waits: queue::async_get, recurring_event (hence sequenced_event and barrier), wait_group (hence oneshot_event), future::get and post_ack_agent::poll."
 },
 "C03": {
  "status": "proved",
  "note": "Proved for all cancellable waits: queue::async_get, recurring_event (hence sequenced_event and barrier), wait_group (hence oneshot_event), future::get and post_ack_agent::poll."
 },
 "C04": {
  "status": "partial",
  "note": "Refuted: complete() publishes its bit and then still reads event_ (cancellation.hpp 287-307); if cancel() finishes the operation in between and the receiver destroys it, complete() uses freed memory. Proved: no other failure exists, it needs a cancellation of that operation, and destruction after the calls on the operation have returned is always safe."
 },
 "C05": {
  "status": "proved",
  "note": "Proved for all cancellable waits: queue::async_get, recurring_event (hence sequenced_event and barrier), wait_group (hence oneshot_event), future::get and post_ack_agent::poll."
 },
 "C12": {
  "status": "partial",
  "note": "Refuted: raise() increments seq_ before it raises the inner event (sequenced-event.hpp 12-15); a wait for the new number that starts in between is woken by that raise and returns the number waited for. Proved: the value is always the current sequence number, and it is greater if no raise() was half-way through when the wait started."
 },
 "C13": {
  "status": "partial",
  "note": "Refuted: do_arrive() raises the event after leaving its critical section (barrier.hpp 32-56); a thread that has already arrived for the next phase and waits for it is woken by the late raise. Proved: no early wake-up if no arrive call was half-way through when the wait started."
 },
 "C18": {
  "status": "partial",
  "note": "Refuted: done() takes the waiters off the list when the counter reaches zero, but a later add() makes try_cancel (wait-group.hpp 76-87) believe that they are still queued, and it erases a node that is in no list. Proved: safe if add() is called on a group without units only when its waits are over."
 },
 "C21": {
  "status": "partial",
  "note": "Refuted: raise() is wait_group::done(), whose assertion (wait-group.hpp 58) fails on the second call. Proved: no second call of raise() ever returns."
 },
 "C31": {
  "status": "partial",
  "note": "Refuted: copy assignment (promise.hpp 220-230) dereferences a null state_ when the source is empty, and a future that is the only handle frees its state when assigned to itself. Proved: in every execution the state is freed exactly when its last owner is gone, at most once, and no call that obeys the (weakest) rule excluding those two cases, and set_value()/get() on an empty handle, ever fails."
 },
 "C32": {
  "status": "proved",
  "note": "For agents that attach before polling, poll one at a time and do not detach while polling (well_behaved). The assertions cannot fail for them."
 },
 "C33": {
  "status": "proved",
  "note": "For well-behaved agents (see C32). 'Not accessed afterwards' is the absence of failures: the model fails on an access to the node of a completed post."
 },
 "C23": {
  "status": "proved",
  "note": "Proved for every number of operations and every interleaving, with spurious failures of compare_exchange_weak, provided that only owners call unlock()."
 },
 "C24": {
  "status": "proved",
  "note": "Proved for every number of operations and every interleaving, with spurious failures of compare_exchange_weak, provided that only owners call unlock()."
 },
 "C25": {
  "status": "proved",
  "note": "Proved for every number of operations and every interleaving, with spurious failures of compare_exchange_weak, provided that only owners call unlock(). C25_mutex_finishes: the calls return after a bounded number of their own steps, not counting spurious failures."
 },
 "C26": {
  "status": "proved",
  "note": "Proved for every number of operations and every interleaving, with spurious failures of compare_exchange_weak, provided that only owners of the respective kind call unlock() and unlock_shared()."
 },
 "C27": {
  "status": "partial",
  "note": "Proved for every number of operations and every interleaving, with spurious failures of compare_exchange_weak, provided that only owners of the respective kind call unlock() and unlock_shared(). False in one case: unlock() makes a batch of suspended readers owners and completes them one by one; before a reader of the batch is completed, try_lock_shared() and new shared operations may acquire (C27_shared_mutex_refuted). Proved: the order of completion and of choice among suspended operations, that nobody overtakes a suspended writer, and that nobody overtakes a suspended reader before it is made an owner."
 },
 "C28": {
  "status": "proved",
  "note": "Proved for every number of operations and every interleaving, with spurious failures of compare_exchange_weak, provided that only owners of the respective kind call unlock() and unlock_shared(). C28_shared_mutex_finishes: the calls return after a bounded number of their own steps, not counting spurious failures."
 },
 "C29": {
  "status": "partial",
  "note": "False as documented (docs/src/headers/mutex/shared_mutex.md): with a shared owner and a suspended writer, async_lock_shared() suspends and try_lock_shared() fails (C29_shared_mutex_refuted). C29_shared_mutex_partial: started while no other call is in flight, a shared operation suspends only if there is an exclusive owner or a suspended operation."
 },
 "C22": {
  "status": "proved",
  "note": "Proved for every number of waits and every interleaving, with spurious failures of compare_exchange_weak, provided that raise() is called at most once. The theorems also allow the client to destroy an operation when it is notified, and the oneshot_primitive when all started waits have completed, even while raise() is still running."
 },
 "C34": {
  "status": "proved",
  "note": "Every number of events, callbacks and observers and every interleaving of the critical sections; functors may use the token and other objects while they run. Client rules (k_rule in S_Cancel.v): no destruction of a callback whose call by cancel() is pending, no second unbind() or destruction after unbind() unless cancellation is requested, reset() only while not requested or when the users are destroyed."
 },
 "C35": {
  "status": "partial",
  "note": "Refuted in the stated generality by four executions: destruction while cancel() is about to call the functor (use after free), unbind() followed by the destructor (second erase), a call after unbind() returned, and a functor called by the constructor that uses its token (self-deadlock). Proved under the client rules: no call after the destructor; a call after unbind() only if cancel() came first."
 },
 "C36": {
  "status": "partial",
  "note": "Refuted: cancel(), reset(), then destruction of a callback erases it from a list it is not in. Proved: under the rule that reset() is called while cancellation is not requested or when all users are destroyed, all of C34 holds, and functors of callbacks constructed after reset() run only after a new cancel()."
 },
 "C37": {
  "status": "proved",
  "note": "Every number of observers and events and every interleaving. Client rules: an observer is given a token once, try_reset() is not called again after it returned true, an observer that is set is destroyed only after try_reset() succeeded or the handler was called."
 },
 "C38": {
  "status": "proved",
  "note": "Every list of tokens (empty tokens and shared events included), every number of concurrent cancel() calls and every interleaving of their critical sections and atomic accesses with start(). The operation is destroyed in the step that notifies its receiver, so safety covers accesses after completion. Not modelled: reset() of the events while the operation exists, wrap-around of the 30-bit counter."
 },
 "C39": {
  "status": "proved",
  "note": "Every interleaving of start(), the completion of the wrapped operation (which may come at any time after it was started, with any value) and any number of cancel() calls, with an empty and a non-empty token. The operation is destroyed in the step that notifies its receiver. Not modelled: reset() of the event while the operation exists."
 },
 "C40": {
  "status": "partial",
  "note": "Refuted when all senders complete before start() has returned: start() ends with ctr_.fetch_sub(0) and assert(c > 0), which fails (start_inline() always returns false, so n_fast is 0); with NDEBUG the receiver is notified twice; and if the receiver destroys the operation when it is notified, start() accesses freed memory. Proved for every N >= 1 and every interleaving in which at least one sender completes after start() has returned: no failure, notified exactly once, after all senders. With assertions enabled, at most once and only after all senders holds without that rule."
 },
 "C41": {
  "status": "proved",
  "note": "Every N >= 1 and every interleaving of the starts, completions, cancel() calls and the destruction of the operation. The executions considered end where the operation is used after its destruction, see C42."
 },
 "C42": {
  "status": "partial",
  "note": "Refuted for N = 2 with two threads and for N = 3 with one thread: the completion call that came first is still in its loop of cancel() calls when the last completion notifies the receiver, which destroys the operation. Proved: if the operation is destroyed after the notification and not before the completion call that came first has returned, it is not accessed afterwards."
 },
 "C43": {
  "status": "proved",
  "note": "Every expression over invocable, transform, ite, repeat_while, let, sequence, lambda and arbitrary leaf senders, including expressions that user functions return; user functions return arbitrary values; leaf senders complete at any time on any thread, also inside of start(). The sequential program is the function sem of S_Algo.v. Client rule: the operation is destroyed after the notification or, if it is not a let operation, before start()."
 },
 "C44": {
  "status": "proved",
  "note": "Same model. Constructing over a live operation, destroying a dead one, starting a leaf twice and accessing a destroyed operation are failures of the model."
 },
 "C45": {
  "status": "partial",
  "note": "Refuted: ~let_operation calls op_.destruct() without checking that op_ was constructed; frg::manual_box::destruct() asserts (without assertions, it destroys an object that was never constructed). Proved for the operations of all other algorithms."
 },
 "C46": {
  "status": "proved",
  "note": "Model of result_operation::start and the final suspension as two threads that race on cfp_; the body of the coroutine is arbitrary. Assumes the client destroys a started operation only after its receiver was notified; the coroutine is resumed only while it is suspended."
 },
 "C47": {
  "status": "proved",
  "note": "The body is arbitrary; the consumer may start, complete and destroy operations inside of set_value(). Assumes that next() operations are started one after the other, once each, and that the generator is not destroyed while one is running."
 },
 "C48": {
  "status": "partial",
  "note": "Refuted: next_operation::start resumes the coroutine without checking done(); after the end it is suspended at its final suspension point and resuming it is undefined. C48_generator_after_end shows that this happens in every state after the end."
 },
 "C49": {
  "status": "proved",
  "note": "The trace is a prefix of the one expected sequence for every completion timing. The operation completes at most once and does not access itself after set_value() (contract of operations)."
 },
 "C50": {
  "status": "partial",
  "note": "Proved for senders that complete on the thread of run() (inside of start() or wait()); return value, return and memory safety are also proved for other threads, on sequentially consistent memory (done is a plain bool). That wait() is called only before the completion is refuted for completion on another thread (check-then-wait)."
 },
 "C51": {
  "status": "proved",
  "note": "Operational model of one atomic location with views (M_Weak): relaxed loads may return old values, acquire joins released views, read-modify-writes continue release sequences. No load buffering (program order and reads-from are acyclic). Accesses are ordered by the mutex alone: threads start with arbitrary views."
 },
 "C52": {
  "status": "proved",
  "note": "Same memory model as C51. Proved for the orders of the code (the proof does not depend on the hand-off orders)."
 },
 "C53": {
  "status": "partial",
  "note": "Refuted for the code: (1) unlock_shared() hands over to a writer without acquiring what earlier readers released (mutex.hpp 559-586), so the write races with their reads; (2) unlock() hands over to readers by a relaxed store (492-502), a reader that joins by try_lock_shared() does not see the writes. Proved while no operation suspends, and proved in general if (1) becomes an acquire exchange and (2) a release store; each change is needed."
 },
 "C54": {
  "status": "proved",
  "note": "Happens-before model on top of M_Wait (M_WaitHB): the mutex of the primitive, the mutexes of the cancellation events and the fetch_or are the only synchronization; threads that call the library know an arbitrary set of earlier accesses. Without the client rule the race of C04 also appears as a data race (theorems ..._eager, ..._eager_refuted). wait_group and the users of recurring_event are excluded, because they load atomics that may be stale."
 },
 "C55": {
  "status": "proved",
  "note": "Same model as C54. For recurring_event the call of raise() that took over the waiter is visible. Handles of post_ack: what was done before the post; the way back (acks) is not part of this model."
 },
 "C56": {
  "status": "partial",
  "note": "Refuted for the code when the receiver destroys the operation: final_suspend reads past_start but does not synchronize with the relaxed exchange of start() (result.hpp 123-128, 297), so that this atomic access and the destruction of cfp_ race. A race by the letter of the memory model (the exchange was the last access of start()). Proved if the destroying thread knows that start() returned; proved for the receiver if both exchanges are acquire-release; each order is shown to be needed."
 },
 "C57": {
  "status": "proved",
  "note": "Happens-before model on top of M_Result (M_HB, M_ResultHB). The thread that resumes the coroutine knows about its suspension."
 },
 "C58": {
  "status": "proved",
  "note": "Also: the acquire and the release order of the decrements are both needed, those of add() do not matter."
 },
 "C59": {
  "status": "proved",
  "note": "Without cancellation (C17, C18 have it)."
 },
 "C60": {
  "status": "partial",
  "note": "Refuted for waits that complete in start() (C60_barrier_inline_refuted): the relaxed load of seq_ under evt_._mutex does not synchronize with the relaxed store under mutex_. Proved for waits that are notified by raise() of their phase or a later one; a release store and an acquire load are necessary and sufficient for all of them (C60_barrier_orders)."
 },
 "C61": {
  "status": "proved",
  "note": "Without cancellation. Waits that are woken by the late raise() of an earlier phase are the subject of C13."
 },
 "C62": {
  "status": "proved",
  "note": "Release by the fetch_add and acquire by the loads are shown to be necessary and sufficient. Without cancellation; mutexes as critical sections; see M_Weak.v for the fragment of the memory model."
 },
 "C63": {
  "status": "proved",
  "note": "Unbounded sequence numbers, no cancellation. Client rule: the view of the caller contains the number it waits on."
 },
 "C64": {
  "status": "proved",
  "note": "The destructor of oneshot_primitive is not part of this model (C22 covers it under sequential consistency)."
 },
 "C65": {
  "status": "proved",
  "note": "Identifiers of operations are not re-used; the values of state_ before raise() are pairwise different, so that the compare-exchange has no ABA problem."
 },
 "C66": {
  "status": "proved",
  "note": "Under the client rules of C40 (senders that all complete inside of start() are refuted there). ctr_ is accessed by fetch_sub only, so the interleavings of M_WhenAll are the executions."
 },
 "C67": {
  "status": "proved",
  "note": "Under the client rule of C42 for destruction. Accesses to the cancellation events are synchronized by their mutexes (M_Cancel) and count as reads."
 },
 "C68": {
  "status": "proved",
  "note": "The event outlives the operation and is not reset, start() is called at most once (as in C39). The operation is constructed by the thread that calls start()."
 },
 "C69": {
  "status": "proved",
  "note": "Trace refinement to a sequential semantics of programs (ret, pre); SC memory; leaves are arbitrary operations that complete at most once."
 },
 "C70": {
  "status": "proved",
  "note": ""
 },
 "C71": {
  "status": "partial",
  "note": "Refuted: start_inline() always returns false, so that an operation that completes inside of start() (a leaf or a coroutine that does not suspend) resumes the awaiting coroutine on top of await_suspend(); a loop of such operations has unbounded stack. Proved: the height is at most linear in the number of co_await expressions evaluated."
 },
 "C72": {
  "status": "proved",
  "note": "The operation is constructed by the thread that calls start(). An access to the list of callbacks is assumed to access the hooks of all linked observers of the operation."
 },
 "C73": {
  "status": "proved",
  "note": "The memory of the handles is the client's to protect, the memory of the get operations is covered by C54. The orders are those of the reference count; the mutex and the resolver of a get synchronize as in the code."
 },
 "C74": {
  "status": "proved",
  "note": "The memory of the poll operations and their resolvers is the subject of C54 and C55. The relaxed store of acks_left before the node is linked counts as part of its construction. The orders are those of the two fetch_sub(); the mutex and the resolvers synchronize as in the code."
 },
 "C75": {
  "status": "proved",
  "note": "Client rules: those of C34 (k_rule in S_Cancel.v), the calls on one callback or observer are ordered, its destruction happens after the beginning of the call of its functor, the destruction of an event happens after the calls that use it."
 },
 "C76": {
  "status": "partial",
  "note": "True for detach() and spawn(). False for run(): done and value are not atomic, hence an operation that completes on another thread races with the loop of run() (C76_run_race_refuted). C76_run_race_iff states exactly when run() is free of data races: the operation completes inside of start() or wait(), and these calls synchronize with the completing thread; then the rest of the statement holds."
 },
 "C77": {
  "status": "partial",
  "note": "Refuted: after ack() operator bool is still true although the post may be gone (C77_handle_bool_refuted); all the rest is proved."
 },
 "C78": {
  "status": "proved",
  "note": "The two misuses are characterised exactly by C78_generator_safe."
 },
 "C79": {
  "status": "proved",
  "note": "The rule of done() (the add() of its unit happens before it, one call per unit) is built into the model. The failures that remain without the rules of C04 and C18 are shown by examples."
 },
 "C80": {
  "status": "proved",
  "note": "Runs of M_WaitGroupHB are runs of M_WaitHB over M_WaitGroupC; which values of the counter a thread can still read is derived from the happens-before relation."
 },
 "C81": {
  "status": "proved",
  "note": "Conservative extension: the runs of the machine with hooks are exactly the runs of M_Wait, for each of the five primitives. The queue of posts of post_ack is checked in M_PostAck itself."
 },
 "C82": {
  "status": "partial",
  "note": "The early destruction is refuted (C82_queue_early_refuted), with the exact cause in C82_*_early_partial; destruction after start() and complete() returned is proved for all five primitives."
 },
 "C83": {
  "status": "partial",
  "note": "Proved for queue, recurring_event, wait_group and oneshot_event. Refuted for sequenced_event and barrier, which are safe when all raise()/arrive() calls are past the inner raise()."
 },
 "C84": {
  "status": "partial",
  "note": "Refuted for empty() called concurrently with put() (C84_queue_refuted). Proved: no race without empty(), no race with it if the client orders the calls, and the meaning of its result."
 },
 "C85": {
  "status": "proved",
  "note": "Interleaving semantics; the critical section of the platform mutex is one step, i.e. the platform mutex may be destroyed by its next owner as POSIX requires. The restriction to an exclusive last owner is necessary (Example shared_last)."
 },
 "C86": {
  "status": "proved",
  "note": "Happens-before over the cancellable-wait model plus stale reads of seq_. Client rule: the caller of async_wait(t) knows a raise() that made t or a later number."
 },
 "C87": {
  "status": "proved",
  "note": "Each step of start() and unlock() and each successful try_lock() is recorded as an access; failing tries are the caller's business. The thread of the last unlock() knows all of them."
 },
 "C88": {
  "status": "partial",
  "note": "Refuted for the code: the last reader passes the mutex to a writer without an acquire operation (lines 559-586). Proved for the code if no exclusive operation suspends, and in general if that hand-off acquires."
 },
 "C89": {
  "status": "partial",
  "note": "Proved for any_receiver (C89_any_receiver). Refuted for callback: operator() passes the storage by value (basic.hpp 259, 286), so that the changes a call makes in a mutable functor are lost (C89_callback_refuted). Proved for callback: each call runs a fresh copy of the functor that the callback was constructed with (C89_callback_partial), which is what the property says if calls do not change the functor (C89_callback_stateless_partial)."
 },
 "C90": {
  "status": "proved",
  "note": ""
 },
 "C91": {
  "status": "proved",
  "note": "Executions that run into the defects of C40 and C42 are excluded (they fail in the model); lambda is covered by C43."
 },
 "C92": {
  "status": "proved",
  "note": "Same exclusions as C91."
 },
 "C93": {
  "status": "proved",
  "note": "The cancel() calls of race_and_cancel do not happen before the notification, see C42 and the example in T_NestHB.v."
 },
 "C94": {
  "status": "proved",
  "note": "Without cancellation (the weak-memory model M_WaitGroupW). The destruction with cancellation is C83 (sequentially consistent)."
 },
 "C95": {
  "status": "proved",
  "note": "The rule for the client is built into the label JDel; the destruction is an access to the whole object (implicit destructor)."
 },
 "C96": {
  "status": "proved",
  "note": "A refinement in both directions between M_MutexW and M_Mutex; for oneshot_primitive from M_OneshotW to M_OneshotPrim (raise() is reported when it is called in one model and when it executes the exchange in the other, therefore the converse is not claimed). Examples with stale reads and their interleaving."
 },
 "C97": {
  "status": "proved",
  "note": "The rules for the clients are built into the labels of M_InGroup: the wrapped operations own their units, ILDel needs the notification of the receiver. Liveness is stated for executions after which no call of done() and no notification loop is in flight."
 },
 "C98": {
  "status": "partial",
  "note": "Refuted: receiver_::set_value() calls done(), which notifies the wait, and then uses op_.originalr_ (C98_wait_in_group_early_refuted). What holds is C98_wait_in_group_early_partial: the original operations have completed and what they did happens before the notification. Missing: the last use of the wrapped operation itself."
 },
 "C99": {
  "status": "proved",
  "note": "One thread; the operations of when_all and race_and_cancel complete one after the other (interleavings are C91). Every operation is started and completes before it is destroyed."
 },
 "C100": {
  "status": "partial",
  "note": "Refuted for race_and_cancel (C100_race_connect_refuted: the events of the tokens are constructed after and destroyed before the operations) and for with_cancel_cb (C100_with_cancel_cb_connect_refuted: the downstream receiver is initialized after and destroyed before the operation). C100_connect_exactly_partial: a nesting accesses a member outside of its lifetime if and only if it violates the conditions of C99. Missing: the statement itself, it is false."
 },
 "C101": {
  "status": "proved",
  "note": "Same simplifications as C99. That let() cannot be destroyed before start() is the defect C45."
 },
 "C102": {
  "status": "proved",
  "note": "Refactoring rules. The laws are about the events of the program (user functions, operations, the receiver), not about where operations are stored. The laws of when_all() and the congruence below when_all() and race_and_cancel() are about the structured program of C91, which does not fix the order in which operations are started; equality of the executions of the code is shown for expressions without these two. Failing executions (C40, C42) are not executions of the program."
 },
 "C103": {
  "status": "proved",
  "note": "C103_when_all shows that the order of events is not determined once when_all() is used."
 },
 "C104": {
  "status": "proved",
  "note": "Failures are those of C40 and C42. C104_loop shows that a repeat_while() can go on forever if its condition keeps returning true."
 },
 "C105": {
  "status": "partial",
  "note": "Refuted: start_inline() always returns false, so that the loop in loop_() is never used for a second iteration; an operation that completes inside of start() calls set_value() of the receiver, which calls loop_() again on top of it, three frames per iteration (C105_repeat_while_stack_refuted for invocable(), C105_repeat_while_leaf_refuted for operations of the client). Proved: the stack is bounded by a number that depends on the expression only, if operations of the client do not complete inside of start() and each iteration of each loop waits for one (C105_nested_stack_async_partial), and it is always at most linear in the number of steps since an operation returned from start() without having completed (C105_nested_stack_partial)."
 },
 "C106": {
  "status": "proved",
  "note": "C106_no_wait and C106_early show that each of the two conditions is needed: without it the assertion after line 713 fails (C40)."
 }
}