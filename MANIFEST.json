{
 "claims": [
  {
   "property": "C01",
   "status": "proved",
   "theorems": [
    "Verif.T_Future.C01_future",
    "Verif.T_PostAck.C01_post_ack",
    "Verif.T_Queue.C01_queue",
    "Verif.T_Recurring.C01_recurring",
    "Verif.T_WaitGroup.C01_wait_group"
   ],
   "note": "Proved for all cancellable waits: queue::async_get, recurring_event (hence sequenced_event and barrier), wait_group (hence oneshot_event), future::get and post_ack_agent::poll."
  },
  {
   "property": "C02",
   "status": "proved",
   "theorems": [
    "Verif.T_Future.C02_future_cancelled",
    "Verif.T_Future.C02_future_pending",
    "Verif.T_Future.C02_future_finishes",
    "Verif.T_Future.C02_future_progress",
    "Verif.T_PostAck.C02_post_ack_cancelled",
    "Verif.T_PostAck.C02_post_ack_pending",
    "Verif.T_PostAck.C02_post_ack_finishes",
    "Verif.T_PostAck.C02_post_ack_progress",
    "Verif.T_Queue.C02_queue_cancelled",
    "Verif.T_Queue.C02_queue_woken",
    "Verif.T_Queue.C02_queue_pending",
    "Verif.T_Queue.C02_queue_finishes",
    "Verif.T_Queue.C02_queue_progress",
    "Verif.T_Recurring.C02_recurring_cancelled",
    "Verif.T_Recurring.C02_recurring_woken",
    "Verif.T_Recurring.C02_recurring_pending",
    "Verif.T_Recurring.C02_recurring_finishes",
    "Verif.T_Recurring.C02_recurring_progress",
    "Verif.T_WaitGroup.C02_wait_group_cancelled",
    "Verif.T_WaitGroup.C02_wait_group_woken",
    "Verif.T_WaitGroup.C02_wait_group_pending",
    "Verif.T_WaitGroup.C02_wait_group_finishes",
    "Verif.T_WaitGroup.C02_wait_group_progress"
   ],
   "note": "Proved for all cancellable waits: queue::async_get, recurring_event (hence sequenced_event and barrier), wait_group (hence oneshot_event), future::get and post_ack_agent::poll."
  },
  {
   "property": "C03",
   "status": "proved",
   "theorems": [
    "Verif.T_Future.C03_future_default_token",
    "Verif.T_Future.C03_future_cancelled",
    "Verif.T_Future.C03_future_success",
    "Verif.T_PostAck.C03_post_ack_cancelled",
    "Verif.T_PostAck.C03_post_ack_success",
    "Verif.T_PostAck.C03_post_ack_default_token",
    "Verif.T_Queue.C03_queue_cancelled",
    "Verif.T_Queue.C03_queue_success",
    "Verif.T_Queue.C03_queue_default_token",
    "Verif.T_Recurring.C03_recurring_default_token",
    "Verif.T_Recurring.C03_recurring_cancelled",
    "Verif.T_Recurring.C03_recurring_success",
    "Verif.T_WaitGroup.C03_wait_group_default_token",
    "Verif.T_WaitGroup.C03_wait_group_cancelled",
    "Verif.T_WaitGroup.C03_wait_group_success"
   ],
   "note": "Proved for all cancellable waits: queue::async_get, recurring_event (hence sequenced_event and barrier), wait_group (hence oneshot_event), future::get and post_ack_agent::poll."
  },
  {
   "property": "C04",
   "status": "partial",
   "theorems": [
    "Verif.T_Future.C04_future_refuted",
    "Verif.T_Future.C04_future_partial",
    "Verif.T_Future.C04_future_lazy_partial",
    "Verif.T_PostAck.C04_post_ack_refuted",
    "Verif.T_PostAck.C04_post_ack_partial",
    "Verif.T_PostAck.C04_post_ack_lazy_partial",
    "Verif.T_Queue.C04_queue_refuted",
    "Verif.T_Queue.C04_queue_partial",
    "Verif.T_Queue.C04_queue_lazy_partial",
    "Verif.T_Recurring.C04_recurring_refuted",
    "Verif.T_Recurring.C04_recurring_partial",
    "Verif.T_Recurring.C04_recurring_lazy_partial",
    "Verif.T_WaitGroup.C04_wait_group_refuted",
    "Verif.T_WaitGroup.C04_wait_group_partial",
    "Verif.T_WaitGroup.C04_wait_group_lazy_partial"
   ],
   "note": "Refuted: complete() publishes its bit and then still reads event_ (cancellation.hpp 287-307); if cancel() finishes the operation in between and the receiver destroys it, complete() uses freed memory. Proved: no other failure exists, it needs a cancellation of that operation, and destruction after the calls on the operation have returned is always safe."
  },
  {
   "property": "C05",
   "status": "proved",
   "theorems": [
    "Verif.T_Future.C05_future",
    "Verif.T_PostAck.C05_post_ack",
    "Verif.T_Queue.C05_queue",
    "Verif.T_Recurring.C05_recurring",
    "Verif.T_WaitGroup.C05_wait_group"
   ],
   "note": "Proved for all cancellable waits: queue::async_get, recurring_event (hence sequenced_event and barrier), wait_group (hence oneshot_event), future::get and post_ack_agent::poll."
  },
  {
   "property": "C06",
   "status": "proved",
   "theorems": [
    "Verif.T_Queue.C06_queue_fifo",
    "Verif.T_Queue.C06_queue_fifo_quiescent"
   ],
   "note": ""
  },
  {
   "property": "C07",
   "status": "proved",
   "theorems": [
    "Verif.T_Queue.C07_queue_exclusive",
    "Verif.T_Queue.C07_queue_asserts",
    "Verif.T_Queue.C07_queue_quiescent"
   ],
   "note": ""
  },
  {
   "property": "C08",
   "status": "proved",
   "theorems": [
    "Verif.T_Queue.C08_queue_null",
    "Verif.T_Queue.C08_queue_handed"
   ],
   "note": ""
  },
  {
   "property": "C09",
   "status": "proved",
   "theorems": [
    "Verif.T_Recurring.C09_recurring_woken",
    "Verif.T_Recurring.C09_recurring_raise",
    "Verif.T_Recurring.C09_recurring_asserts"
   ],
   "note": ""
  },
  {
   "property": "C10",
   "status": "proved",
   "theorems": [
    "Verif.T_Recurring.C10_recurring_awaited",
    "Verif.T_Recurring.C10_recurring_condition",
    "Verif.T_Recurring.C10_recurring_cancelled",
    "Verif.T_Recurring.C10_recurring_complete"
   ],
   "note": ""
  },
  {
   "property": "C11",
   "status": "proved",
   "theorems": [
    "Verif.T_Sequenced.C11_sequenced_woken",
    "Verif.T_Sequenced.C11_sequenced_raise",
    "Verif.T_Sequenced.C11_sequenced_failures",
    "Verif.T_Sequenced.C11_sequenced_next"
   ],
   "note": ""
  },
  {
   "property": "C12",
   "status": "partial",
   "theorems": [
    "Verif.T_Sequenced.C12_sequenced_refuted",
    "Verif.T_Sequenced.C12_sequenced_value_partial",
    "Verif.T_Sequenced.C12_sequenced_partial"
   ],
   "note": "Refuted: raise() increments seq_ before it raises the inner event (sequenced-event.hpp 12-15); a wait for the new number that starts in between is woken by that raise and returns the number waited for. Proved: the value is always the current sequence number, and it is greater if no raise() was half-way through when the wait started."
  },
  {
   "property": "C13",
   "status": "partial",
   "theorems": [
    "Verif.T_Sequenced.C13_barrier_refuted",
    "Verif.T_Sequenced.C13_barrier_partial"
   ],
   "note": "Refuted: do_arrive() raises the event after leaving its critical section (barrier.hpp 32-56); a thread that has already arrived for the next phase and waits for it is woken by the late raise. Proved: no early wake-up if no arrive call was half-way through when the wait started."
  },
  {
   "property": "C14",
   "status": "proved",
   "theorems": [
    "Verif.T_Sequenced.C14_barrier_woken",
    "Verif.T_Sequenced.C14_barrier_raise"
   ],
   "note": ""
  },
  {
   "property": "C15",
   "status": "proved",
   "theorems": [
    "Verif.T_Sequenced.C15_barrier_log",
    "Verif.T_Sequenced.C15_barrier_calls",
    "Verif.T_Sequenced.C15_barrier_unique",
    "Verif.T_Sequenced.C15_barrier_asserts"
   ],
   "note": ""
  },
  {
   "property": "C16",
   "status": "proved",
   "theorems": [
    "Verif.T_WaitGroup.C16_wait_group"
   ],
   "note": ""
  },
  {
   "property": "C17",
   "status": "proved",
   "theorems": [
    "Verif.T_WaitGroup.C17_wait_group_asserts",
    "Verif.T_WaitGroup.C17_wait_group_released",
    "Verif.T_WaitGroup.C17_wait_group_progress"
   ],
   "note": ""
  },
  {
   "property": "C18",
   "status": "partial",
   "theorems": [
    "Verif.T_WaitGroup.C18_wait_group_refuted",
    "Verif.T_WaitGroup.C18_wait_group_partial"
   ],
   "note": "Refuted: done() takes the waiters off the list when the counter reaches zero, but a later add() makes try_cancel (wait-group.hpp 76-87) believe that they are still queued, and it erases a node that is in no list. Proved: safe if add() is called on a group without units only when its waits are over."
  },
  {
   "property": "C19",
   "status": "proved",
   "theorems": [
    "Verif.T_WaitGroup.C19_wait_in_group_events",
    "Verif.T_WaitGroup.C19_wait_in_group_before",
    "Verif.T_WaitGroup.C19_wait_in_group_count",
    "Verif.T_WaitGroup.C19_wait_in_group_waits"
   ],
   "note": ""
  },
  {
   "property": "C20",
   "status": "proved",
   "theorems": [
    "Verif.T_WaitGroup.C20_oneshot_before",
    "Verif.T_WaitGroup.C20_oneshot_after",
    "Verif.T_WaitGroup.C20_oneshot_false",
    "Verif.T_WaitGroup.C20_oneshot_safe"
   ],
   "note": ""
  },
  {
   "property": "C21",
   "status": "partial",
   "theorems": [
    "Verif.T_WaitGroup.C21_oneshot_refuted",
    "Verif.T_WaitGroup.C21_oneshot_partial"
   ],
   "note": "Refuted: raise() is wait_group::done(), whose assertion (wait-group.hpp 58) fails on the second call. Proved: no second call of raise() ever returns."
  },
  {
   "property": "C22",
   "status": "proved",
   "theorems": [
    "Verif.T_OneshotPrim.C22_oneshot_primitive_safe",
    "Verif.T_OneshotPrim.C22_oneshot_primitive_after",
    "Verif.T_OneshotPrim.C22_oneshot_primitive_once",
    "Verif.T_OneshotPrim.C22_oneshot_primitive_complete",
    "Verif.T_OneshotPrim.C22_oneshot_primitive_progress",
    "Verif.T_OneshotPrim.C22_oneshot_primitive_finishes"
   ],
   "note": "Proved for every number of waits and every interleaving, with spurious failures of compare_exchange_weak, provided that raise() is called at most once. The theorems also allow the client to destroy an operation when it is notified, and the oneshot_primitive when all started waits have completed, even while raise() is still running."
  },
  {
   "property": "C23",
   "status": "proved",
   "theorems": [
    "Verif.T_Mutex.C23_mutex_exclusive",
    "Verif.T_Mutex.C23_mutex_one_owner",
    "Verif.T_Mutex.C23_mutex_asserts",
    "Verif.T_Mutex.C23_mutex_once"
   ],
   "note": "Proved for every number of operations and every interleaving, with spurious failures of compare_exchange_weak, provided that only owners call unlock()."
  },
  {
   "property": "C24",
   "status": "proved",
   "theorems": [
    "Verif.T_Mutex.C24_mutex_fifo",
    "Verif.T_Mutex.C24_mutex_try",
    "Verif.T_Mutex.C24_mutex_barge"
   ],
   "note": "Proved for every number of operations and every interleaving, with spurious failures of compare_exchange_weak, provided that only owners call unlock()."
  },
  {
   "property": "C25",
   "status": "proved",
   "theorems": [
    "Verif.T_Mutex.C25_mutex_idle",
    "Verif.T_Mutex.C25_mutex_pending",
    "Verif.T_Mutex.C25_mutex_progress",
    "Verif.T_Mutex.C25_mutex_finishes"
   ],
   "note": "Proved for every number of operations and every interleaving, with spurious failures of compare_exchange_weak, provided that only owners call unlock(). C25_mutex_finishes: the calls return after a bounded number of their own steps, not counting spurious failures."
  },
  {
   "property": "C26",
   "status": "proved",
   "theorems": [
    "Verif.T_SharedMutex.C26_shared_mutex_exclusive",
    "Verif.T_SharedMutex.C26_shared_mutex_counts",
    "Verif.T_SharedMutex.C26_shared_mutex_asserts",
    "Verif.T_SharedMutex.C26_shared_mutex_once"
   ],
   "note": "Proved for every number of operations and every interleaving, with spurious failures of compare_exchange_weak, provided that only owners of the respective kind call unlock() and unlock_shared()."
  },
  {
   "property": "C27",
   "status": "partial",
   "theorems": [
    "Verif.T_SharedMutex.C27_shared_mutex_fifo",
    "Verif.T_SharedMutex.C27_shared_mutex_hands",
    "Verif.T_SharedMutex.C27_shared_mutex_barge_partial",
    "Verif.T_SharedMutex.C27_shared_mutex_try_partial",
    "Verif.T_SharedMutex.C27_shared_mutex_refuted"
   ],
   "note": "Proved for every number of operations and every interleaving, with spurious failures of compare_exchange_weak, provided that only owners of the respective kind call unlock() and unlock_shared(). False in one case: unlock() makes a batch of suspended readers owners and completes them one by one; before a reader of the batch is completed, try_lock_shared() and new shared operations may acquire (C27_shared_mutex_refuted). Proved: the order of completion and of choice among suspended operations, that nobody overtakes a suspended writer, and that nobody overtakes a suspended reader before it is made an owner."
  },
  {
   "property": "C28",
   "status": "proved",
   "theorems": [
    "Verif.T_SharedMutex.C28_shared_mutex_idle",
    "Verif.T_SharedMutex.C28_shared_mutex_pending",
    "Verif.T_SharedMutex.C28_shared_mutex_progress",
    "Verif.T_SharedMutex.C28_shared_mutex_finishes"
   ],
   "note": "Proved for every number of operations and every interleaving, with spurious failures of compare_exchange_weak, provided that only owners of the respective kind call unlock() and unlock_shared(). C28_shared_mutex_finishes: the calls return after a bounded number of their own steps, not counting spurious failures."
  },
  {
   "property": "C29",
   "status": "partial",
   "theorems": [
    "Verif.T_SharedMutex.C29_shared_mutex_refuted",
    "Verif.T_SharedMutex.C29_shared_mutex_partial"
   ],
   "note": "False as documented (docs/src/headers/mutex/shared_mutex.md): with a shared owner and a suspended writer, async_lock_shared() suspends and try_lock_shared() fails (C29_shared_mutex_refuted). C29_shared_mutex_partial: started while no other call is in flight, a shared operation suspends only if there is an exclusive owner or a suspended operation."
  },
  {
   "property": "C30",
   "status": "proved",
   "theorems": [
    "Verif.T_Future.C30_future_value",
    "Verif.T_Future.C30_future_complete",
    "Verif.T_Future.C30_future_none",
    "Verif.T_Future.C30_future_asserts",
    "Verif.T_Future.C30_future_split"
   ],
   "note": ""
  },
  {
   "property": "C31",
   "status": "partial",
   "theorems": [
    "Verif.T_Handles.C31_handles_freed",
    "Verif.T_Handles.C31_handles_refer",
    "Verif.T_Handles.C31_handles_partial",
    "Verif.T_Handles.C31_handles_rule",
    "Verif.T_Handles.C31_handles_refuted_empty",
    "Verif.T_Handles.C31_handles_refuted_self"
   ],
   "note": "Refuted: copy assignment (promise.hpp 220-230) dereferences a null state_ when the source is empty, and a future that is the only handle frees its state when assigned to itself. Proved: in every execution the state is freed exactly when its last owner is gone, at most once, and no call that obeys the (weakest) rule excluding those two cases, and set_value()/get() on an empty handle, ever fails."
  },
  {
   "property": "C32",
   "status": "proved",
   "theorems": [
    "Verif.T_PostAck.C32_post_ack_order",
    "Verif.T_PostAck.C32_post_ack_names",
    "Verif.T_PostAck.C32_post_ack_object",
    "Verif.T_PostAck.C32_post_ack_asserts"
   ],
   "note": "For agents that attach before polling, poll one at a time and do not detach while polling (well_behaved). The assertions cannot fail for them."
  },
  {
   "property": "C33",
   "status": "proved",
   "theorems": [
    "Verif.T_PostAck.C33_post_ack_once",
    "Verif.T_PostAck.C33_post_ack_after",
    "Verif.T_PostAck.C33_post_ack_complete",
    "Verif.T_PostAck.C33_post_ack_progress",
    "Verif.T_PostAck.C33_post_ack_finishes",
    "Verif.T_PostAck.C33_post_ack_no_access"
   ],
   "note": "For well-behaved agents (see C32). 'Not accessed afterwards' is the absence of failures: the model fails on an access to the node of a completed post."
  },
  {
   "property": "C34",
   "status": "proved",
   "theorems": [
    "Verif.T_Cancel.C34_cancel_safe",
    "Verif.T_Cancel.C34_cancel_once",
    "Verif.T_Cancel.C34_cancel_cause",
    "Verif.T_Cancel.C34_cancel_complete",
    "Verif.T_Cancel.C34_cancel_late",
    "Verif.T_Cancel.C34_cancel_query",
    "Verif.T_Cancel.C34_cancel_progress",
    "Verif.T_Cancel.C34_cancel_unlocked",
    "Verif.T_Cancel.C34_cancel_finishes"
   ],
   "note": "Every number of events, callbacks and observers and every interleaving of the critical sections; functors may use the token and other objects while they run. Client rules (k_rule in S_Cancel.v): no destruction of a callback whose call by cancel() is pending, no second unbind() or destruction after unbind() unless cancellation is requested, reset() only while not requested or when the users are destroyed."
  },
  {
   "property": "C35",
   "status": "partial",
   "theorems": [
    "Verif.T_Cancel.C35_cancel_deleted_partial",
    "Verif.T_Cancel.C35_cancel_unbind_partial",
    "Verif.T_Cancel.C35_cancel_destroy_refuted",
    "Verif.T_Cancel.C35_cancel_unbind_destroy_refuted",
    "Verif.T_Cancel.C35_cancel_unbind_refuted",
    "Verif.T_Cancel.C35_cancel_token_refuted"
   ],
   "note": "Refuted in the stated generality by four executions: destruction while cancel() is about to call the functor (use after free), unbind() followed by the destructor (second erase), a call after unbind() returned, and a functor called by the constructor that uses its token (self-deadlock). Proved under the client rules: no call after the destructor; a call after unbind() only if cancel() came first."
  },
  {
   "property": "C36",
   "status": "partial",
   "theorems": [
    "Verif.T_Cancel.C36_cancel_reset_partial",
    "Verif.T_Cancel.C36_cancel_reset_refuted"
   ],
   "note": "Refuted: cancel(), reset(), then destruction of a callback erases it from a list it is not in. Proved: under the rule that reset() is called while cancellation is not requested or when all users are destroyed, all of C34 holds, and functors of callbacks constructed after reset() run only after a new cancel()."
  },
  {
   "property": "C37",
   "status": "proved",
   "theorems": [
    "Verif.T_Cancel.C37_observer_once",
    "Verif.T_Cancel.C37_observer_reset_true",
    "Verif.T_Cancel.C37_observer_reset_false",
    "Verif.T_Cancel.C37_observer_set",
    "Verif.T_Cancel.C37_observer_set_false",
    "Verif.T_Cancel.C37_observer_force",
    "Verif.T_Cancel.C37_observer_complete"
   ],
   "note": "Every number of observers and events and every interleaving. Client rules: an observer is given a token once, try_reset() is not called again after it returned true, an observer that is set is destroyed only after try_reset() succeeded or the handler was called."
  },
  {
   "property": "C38",
   "status": "proved",
   "theorems": [
    "Verif.T_Suspend.C38_suspend_safe",
    "Verif.T_Suspend.C38_suspend_once",
    "Verif.T_Suspend.C38_suspend_cause",
    "Verif.T_Suspend.C38_suspend_complete",
    "Verif.T_Suspend.C38_suspend_progress",
    "Verif.T_Suspend.C38_suspend_finishes"
   ],
   "note": "Every list of tokens (empty tokens and shared events included), every number of concurrent cancel() calls and every interleaving of their critical sections and atomic accesses with start(). The operation is destroyed in the step that notifies its receiver, so safety covers accesses after completion. Not modelled: reset() of the events while the operation exists, wrap-around of the 30-bit counter."
  },
  {
   "property": "C39",
   "status": "proved",
   "theorems": [
    "Verif.T_Suspend.C39_with_cancel_cb_safe",
    "Verif.T_Suspend.C39_with_cancel_cb_once",
    "Verif.T_Suspend.C39_with_cancel_cb_value",
    "Verif.T_Suspend.C39_with_cancel_cb_cause",
    "Verif.T_Suspend.C39_with_cancel_cb_complete",
    "Verif.T_Suspend.C39_with_cancel_cb_called",
    "Verif.T_Suspend.C39_with_cancel_cb_progress",
    "Verif.T_Suspend.C39_with_cancel_cb_finishes"
   ],
   "note": "Every interleaving of start(), the completion of the wrapped operation (which may come at any time after it was started, with any value) and any number of cancel() calls, with an empty and a non-empty token. The operation is destroyed in the step that notifies its receiver. Not modelled: reset() of the event while the operation exists."
  },
  {
   "property": "C40",
   "status": "partial",
   "theorems": [
    "Verif.T_Parallel.C40_when_all_once_partial",
    "Verif.T_Parallel.C40_when_all_after_partial",
    "Verif.T_Parallel.C40_when_all_complete_partial",
    "Verif.T_Parallel.C40_when_all_started_partial",
    "Verif.T_Parallel.C40_when_all_safe_partial",
    "Verif.T_Parallel.C40_when_all_progress",
    "Verif.T_Parallel.C40_when_all_finishes",
    "Verif.T_Parallel.C40_when_all_inline_refuted",
    "Verif.T_Parallel.C40_when_all_twice_refuted",
    "Verif.T_Parallel.C40_when_all_use_after_free_refuted"
   ],
   "note": "Refuted when all senders complete before start() has returned: start() ends with ctr_.fetch_sub(0) and assert(c > 0), which fails (start_inline() always returns false, so n_fast is 0); with NDEBUG the receiver is notified twice; and if the receiver destroys the operation when it is notified, start() accesses freed memory. Proved for every N >= 1 and every interleaving in which at least one sender completes after start() has returned: no failure, notified exactly once, after all senders. With assertions enabled, at most once and only after all senders holds without that rule."
  },
  {
   "property": "C41",
   "status": "proved",
   "theorems": [
    "Verif.T_Parallel.C41_race_once",
    "Verif.T_Parallel.C41_race_after",
    "Verif.T_Parallel.C41_race_complete",
    "Verif.T_Parallel.C41_race_started",
    "Verif.T_Parallel.C41_race_losers",
    "Verif.T_Parallel.C41_race_winner",
    "Verif.T_Parallel.C41_race_progress",
    "Verif.T_Parallel.C41_race_finishes"
   ],
   "note": "Every N >= 1 and every interleaving of the starts, completions, cancel() calls and the destruction of the operation. The executions considered end where the operation is used after its destruction, see C42."
  },
  {
   "property": "C42",
   "status": "partial",
   "theorems": [
    "Verif.T_Parallel.C42_race_safe_partial",
    "Verif.T_Parallel.C42_race_use_after_free_refuted",
    "Verif.T_Parallel.C42_race_single_thread_refuted"
   ],
   "note": "Refuted for N = 2 with two threads and for N = 3 with one thread: the completion call that came first is still in its loop of cancel() calls when the last completion notifies the receiver, which destroys the operation. Proved: if the operation is destroyed after the notification and not before the completion call that came first has returned, it is not accessed afterwards."
  },
  {
   "property": "C43",
   "status": "proved",
   "theorems": [
    "Verif.T_Algo.C43_algorithms_refine",
    "Verif.T_Algo.C43_algorithms_done",
    "Verif.T_Algo.C43_algorithms_progress",
    "Verif.T_Algo.C43_algorithms_finish"
   ],
   "note": "Every expression over invocable, transform, ite, repeat_while, let, sequence, lambda and arbitrary leaf senders, including expressions that user functions return; user functions return arbitrary values; leaf senders complete at any time on any thread, also inside of start(). The sequential program is the function sem of S_Algo.v. Client rule: the operation is destroyed after the notification or, if it is not a let operation, before start()."
  },
  {
   "property": "C44",
   "status": "proved",
   "theorems": [
    "Verif.T_Algo.C44_algorithms_safe",
    "Verif.T_Algo.C44_algorithms_freed"
   ],
   "note": "Same model. Constructing over a live operation, destroying a dead one, starting a leaf twice and accessing a destroyed operation are failures of the model."
  },
  {
   "property": "C45",
   "status": "partial",
   "theorems": [
    "Verif.T_Algo.C45_let_unstarted_refuted",
    "Verif.T_Algo.C45_others_unstarted_partial"
   ],
   "note": "Refuted: ~let_operation calls op_.destruct() without checking that op_ was constructed; frg::manual_box::destruct() asserts (without assertions, it destroys an object that was never constructed). Proved for the operations of all other algorithms."
  },
  {
   "property": "C46",
   "status": "proved",
   "theorems": [
    "Verif.T_Result.C46_result_once",
    "Verif.T_Result.C46_result_order",
    "Verif.T_Result.C46_result_complete",
    "Verif.T_Result.C46_result_finishes",
    "Verif.T_Result.C46_result_runs",
    "Verif.T_Result.C46_result_safe"
   ],
   "note": "Model of result_operation::start and the final suspension as two threads that race on cfp_; the body of the coroutine is arbitrary. Assumes the client destroys a started operation only after its receiver was notified; the coroutine is resumed only while it is suspended."
  },
  {
   "property": "C47",
   "status": "proved",
   "theorems": [
    "Verif.T_Generator.C47_generator_values",
    "Verif.T_Generator.C47_generator_once",
    "Verif.T_Generator.C47_generator_complete",
    "Verif.T_Generator.C47_generator_waited",
    "Verif.T_Generator.C47_generator_safe"
   ],
   "note": "The body is arbitrary; the consumer may start, complete and destroy operations inside of set_value(). Assumes that next() operations are started one after the other, once each, and that the generator is not destroyed while one is running."
  },
  {
   "property": "C48",
   "status": "partial",
   "theorems": [
    "Verif.T_Generator.C48_generator_after_end_refuted",
    "Verif.T_Generator.C48_generator_after_end"
   ],
   "note": "Refuted: next_operation::start resumes the coroutine without checking done(); after the end it is suspended at its final suspension point and resuming it is undefined. C48_generator_after_end shows that this happens in every state after the end."
  },
  {
   "property": "C49",
   "status": "proved",
   "theorems": [
    "Verif.T_Run.C49_detach_spawn_exact",
    "Verif.T_Run.C49_detach_spawn_complete",
    "Verif.T_Run.C49_detach_spawn_finishes",
    "Verif.T_Run.C49_detach_spawn_safe"
   ],
   "note": "The trace is a prefix of the one expected sequence for every completion timing. The operation completes at most once and does not access itself after set_value() (contract of operations)."
  },
  {
   "property": "C50",
   "status": "partial",
   "theorems": [
    "Verif.T_Run.C50_run_value",
    "Verif.T_Run.C50_run_order",
    "Verif.T_Run.C50_run_forever",
    "Verif.T_Run.C50_run_wait",
    "Verif.T_Run.C50_run_wait_other_thread_refuted",
    "Verif.T_Run.C50_run_set",
    "Verif.T_Run.C50_run_returns",
    "Verif.T_Run.C50_run_finishes",
    "Verif.T_Run.C50_run_fails",
    "Verif.T_Run.C50_run_no_service"
   ],
   "note": "Proved for senders that complete on the thread of run() (inside of start() or wait()); return value, return and memory safety are also proved for other threads, on sequentially consistent memory (done is a plain bool). That wait() is called only before the completion is refuted for completion on another thread (check-then-wait)."
  },
  {
   "property": "C51",
   "status": "proved",
   "theorems": [
    "Verif.T_MutexW.C51_mutex_visibility",
    "Verif.T_MutexW.C51_mutex_exclusive",
    "Verif.T_MutexW.C51_mutex_asserts"
   ],
   "note": "Operational model of one atomic location with views (M_Weak): relaxed loads may return old values, acquire joins released views, read-modify-writes continue release sequences. No load buffering (program order and reads-from are acyclic). Accesses are ordered by the mutex alone: threads start with arbitrary views."
  },
  {
   "property": "C52",
   "status": "proved",
   "theorems": [
    "Verif.T_SharedMutexW.C52_shared_mutex_exclusive",
    "Verif.T_SharedMutexW.C52_shared_mutex_asserts"
   ],
   "note": "Same memory model as C51. Proved for the orders of the code (the proof does not depend on the hand-off orders)."
  },
  {
   "property": "C53",
   "status": "partial",
   "theorems": [
    "Verif.T_SharedMutexW.C53_shared_mutex_writes_refuted",
    "Verif.T_SharedMutexW.C53_shared_mutex_reads_refuted",
    "Verif.T_SharedMutexW.C53_shared_mutex_uncontended_partial",
    "Verif.T_SharedMutexW.C53_shared_mutex_repaired",
    "Verif.T_SharedMutexW.C53_shared_mutex_only_x_refuted",
    "Verif.T_SharedMutexW.C53_shared_mutex_only_s_refuted"
   ],
   "note": "Refuted for the code: (1) unlock_shared() hands over to a writer without acquiring what earlier readers released (mutex.hpp 559-586), so the write races with their reads; (2) unlock() hands over to readers by a relaxed store (492-502), a reader that joins by try_lock_shared() does not see the writes. Proved while no operation suspends, and proved in general if (1) becomes an acquire exchange and (2) a release store; each change is needed."
  },
  {
   "property": "C54",
   "status": "proved",
   "theorems": [
    "Verif.T_WaitHB.C54_queue",
    "Verif.T_WaitHB.C54_recurring",
    "Verif.T_WaitHB.C54_future",
    "Verif.T_WaitHB.C54_post_ack",
    "Verif.T_WaitHB.C54_queue_eager",
    "Verif.T_WaitHB.C54_recurring_eager",
    "Verif.T_WaitHB.C54_future_eager",
    "Verif.T_WaitHB.C54_post_ack_eager",
    "Verif.T_WaitHB.C54_queue_eager_refuted",
    "Verif.T_WaitHB.C54_recurring_eager_refuted",
    "Verif.T_WaitHB.C54_future_eager_refuted",
    "Verif.T_WaitHB.C54_post_ack_eager_refuted",
    "Verif.T_WaitHB.C54_queue_orders_needed",
    "Verif.T_WaitHB.C54_recurring_orders_needed",
    "Verif.T_WaitHB.C54_future_orders_needed",
    "Verif.T_WaitHB.C54_post_ack_orders_needed"
   ],
   "note": "Happens-before model on top of M_Wait (M_WaitHB): the mutex of the primitive, the mutexes of the cancellation events and the fetch_or are the only synchronization; threads that call the library know an arbitrary set of earlier accesses. Without the client rule the race of C04 also appears as a data race (theorems ..._eager, ..._eager_refuted). wait_group and the users of recurring_event are excluded, because they load atomics that may be stale."
  },
  {
   "property": "C55",
   "status": "proved",
   "theorems": [
    "Verif.T_WaitHB.C55_queue_calls",
    "Verif.T_WaitHB.C55_recurring_calls",
    "Verif.T_WaitHB.C55_future_calls",
    "Verif.T_WaitHB.C55_post_ack_calls",
    "Verif.T_WaitHB.C55_queue",
    "Verif.T_WaitHB.C55_future",
    "Verif.T_WaitHB.C55_recurring",
    "Verif.T_WaitHB.C55_post_ack"
   ],
   "note": "Same model as C54. For recurring_event the call of raise() that took over the waiter is visible. Handles of post_ack: what was done before the post; the way back (acks) is not part of this model."
  },
  {
   "property": "C56",
   "status": "partial",
   "theorems": [
    "Verif.T_ResultHB.C56_result_lazy",
    "Verif.T_ResultHB.C56_result_lazy_orders",
    "Verif.T_ResultHB.C56_result_eager_refuted",
    "Verif.T_ResultHB.C56_result_eager_orders"
   ],
   "note": "Refuted for the code when the receiver destroys the operation: final_suspend reads past_start but does not synchronize with the relaxed exchange of start() (result.hpp 123-128, 297), so that this atomic access and the destruction of cfp_ race. A race by the letter of the memory model (the exchange was the last access of start()). Proved if the destroying thread knows that start() returned; proved for the receiver if both exchanges are acquire-release; each order is shown to be needed."
  },
  {
   "property": "C57",
   "status": "proved",
   "theorems": [
    "Verif.T_ResultHB.C57_result_visible"
   ],
   "note": "Happens-before model on top of M_Result (M_HB, M_ResultHB). The thread that resumes the coroutine knows about its suspension."
  },
  {
   "property": "C58",
   "status": "proved",
   "theorems": [
    "Verif.T_WaitGroupW.C58_wait_group_visible",
    "Verif.T_WaitGroupW.C58_wait_group_notified",
    "Verif.T_WaitGroupW.C58_wait_group_orders"
   ],
   "note": "Also: the acquire and the release order of the decrements are both needed, those of add() do not matter."
  },
  {
   "property": "C59",
   "status": "proved",
   "theorems": [
    "Verif.T_WaitGroupW.C59_wait_group_safe",
    "Verif.T_WaitGroupW.C59_wait_group_once",
    "Verif.T_WaitGroupW.C59_wait_group_live"
   ],
   "note": "Without cancellation (C17, C18 have it)."
  },
  {
   "property": "C60",
   "status": "partial",
   "theorems": [
    "Verif.T_BarrierW.C60_barrier_raise",
    "Verif.T_BarrierW.C60_barrier_inline_refuted",
    "Verif.T_BarrierW.C60_barrier_orders"
   ],
   "note": "Refuted for waits that complete in start() (C60_barrier_inline_refuted): the relaxed load of seq_ under evt_._mutex does not synchronize with the relaxed store under mutex_. Proved for waits that are notified by raise() of their phase or a later one; a release store and an acquire load are necessary and sufficient for all of them (C60_barrier_orders)."
  },
  {
   "property": "C61",
   "status": "proved",
   "theorems": [
    "Verif.T_BarrierW.C61_barrier_failures",
    "Verif.T_BarrierW.C61_barrier_token",
    "Verif.T_BarrierW.C61_barrier_not_early",
    "Verif.T_BarrierW.C61_barrier_live",
    "Verif.T_BarrierW.C61_barrier_once"
   ],
   "note": "Without cancellation. Waits that are woken by the late raise() of an earlier phase are the subject of C13."
  },
  {
   "property": "C62",
   "status": "proved",
   "theorems": [
    "Verif.T_SequencedW.C62_sequenced_visible",
    "Verif.T_SequencedW.C62_sequenced_next",
    "Verif.T_SequencedW.C62_sequenced_orders"
   ],
   "note": "Release by the fetch_add and acquire by the loads are shown to be necessary and sufficient. Without cancellation; mutexes as critical sections; see M_Weak.v for the fragment of the memory model."
  },
  {
   "property": "C63",
   "status": "proved",
   "theorems": [
    "Verif.T_SequencedW.C63_sequenced_safe",
    "Verif.T_SequencedW.C63_sequenced_number",
    "Verif.T_SequencedW.C63_sequenced_value",
    "Verif.T_SequencedW.C63_sequenced_live",
    "Verif.T_SequencedW.C63_sequenced_once"
   ],
   "note": "Unbounded sequence numbers, no cancellation. Client rule: the view of the caller contains the number it waits on."
  },
  {
   "property": "C64",
   "status": "proved",
   "theorems": [
    "Verif.T_OneshotW.C64_oneshot_visible",
    "Verif.T_OneshotW.C64_oneshot_start",
    "Verif.T_OneshotW.C64_oneshot_orders"
   ],
   "note": "The destructor of oneshot_primitive is not part of this model (C22 covers it under sequential consistency)."
  },
  {
   "property": "C65",
   "status": "proved",
   "theorems": [
    "Verif.T_OneshotW.C65_oneshot_safe",
    "Verif.T_OneshotW.C65_oneshot_once",
    "Verif.T_OneshotW.C65_oneshot_complete",
    "Verif.T_OneshotW.C65_oneshot_no_aba"
   ],
   "note": "Identifiers of operations are not re-used; the values of state_ before raise() are pairwise different, so that the compare-exchange has no ABA problem."
  },
  {
   "property": "C66",
   "status": "proved",
   "theorems": [
    "Verif.T_WhenAllHB.C66_when_all_race_free",
    "Verif.T_WhenAllHB.C66_when_all_visible",
    "Verif.T_WhenAllHB.C66_when_all_orders"
   ],
   "note": "Under the client rules of C40 (senders that all complete inside of start() are refuted there). ctr_ is accessed by fetch_sub only, so the interleavings of M_WhenAll are the executions."
  },
  {
   "property": "C67",
   "status": "proved",
   "theorems": [
    "Verif.T_RaceHB.C67_race_race_free",
    "Verif.T_RaceHB.C67_race_visible",
    "Verif.T_RaceHB.C67_race_orders"
   ],
   "note": "Under the client rule of C42 for destruction. Accesses to the cancellation events are synchronized by their mutexes (M_Cancel) and count as reads."
  },
  {
   "property": "C68",
   "status": "proved",
   "theorems": [
    "Verif.T_WithCancelHB.C68_with_cancel_cb_race_free",
    "Verif.T_WithCancelHB.C68_with_cancel_cb_visible",
    "Verif.T_WithCancelHB.C68_with_cancel_cb_cancel",
    "Verif.T_WithCancelHB.C68_with_cancel_cb_orders"
   ],
   "note": "The event outlives the operation and is not reset, start() is called at most once (as in C39). The operation is constructed by the thread that calls start()."
  },
  {
   "property": "C69",
   "status": "proved",
   "theorems": [
    "Verif.T_Coro.C69_co_await_safe",
    "Verif.T_Coro.C69_co_await_order",
    "Verif.T_Coro.C69_co_await_value",
    "Verif.T_Coro.C69_co_await_complete",
    "Verif.T_Coro.C69_co_await_moves",
    "Verif.T_Coro.C69_co_await_one_thread"
   ],
   "note": "Trace refinement to a sequential semantics of programs (ret, pre); SC memory; leaves are arbitrary operations that complete at most once."
  },
  {
   "property": "C70",
   "status": "proved",
   "theorems": [
    "Verif.T_Coro.C70_co_await_frames",
    "Verif.T_Coro.C70_co_await_no_leak"
   ],
   "note": ""
  },
  {
   "property": "C71",
   "status": "partial",
   "theorems": [
    "Verif.T_Coro.C71_stack_refuted",
    "Verif.T_Coro.C71_stack_leaf_refuted",
    "Verif.T_Coro.C71_stack_linear_partial"
   ],
   "note": "Refuted: start_inline() always returns false, so that an operation that completes inside of start() (a leaf or a coroutine that does not suspend) resumes the awaiting coroutine on top of await_suspend(); a loop of such operations has unbounded stack. Proved: the height is at most linear in the number of co_await expressions evaluated."
  },
  {
   "property": "C72",
   "status": "proved",
   "theorems": [
    "Verif.T_SuspendHB.C72_suspend_race_free",
    "Verif.T_SuspendHB.C72_suspend_visible",
    "Verif.T_SuspendHB.C72_suspend_cancel",
    "Verif.T_SuspendHB.C72_suspend_orders"
   ],
   "note": "The operation is constructed by the thread that calls start(). An access to the list of callbacks is assumed to access the hooks of all linked observers of the operation."
  },
  {
   "property": "C73",
   "status": "proved",
   "theorems": [
    "Verif.T_PromiseHB.C73_promise_race_free",
    "Verif.T_PromiseHB.C73_promise_visible",
    "Verif.T_PromiseHB.C73_promise_destroy",
    "Verif.T_PromiseHB.C73_promise_orders"
   ],
   "note": "The memory of the handles is the client's to protect, the memory of the get operations is covered by C54. The orders are those of the reference count; the mutex and the resolver of a get synchronize as in the code."
  },
  {
   "property": "C74",
   "status": "proved",
   "theorems": [
    "Verif.T_PostAckHB.C74_post_ack_race_free",
    "Verif.T_PostAckHB.C74_post_ack_visible",
    "Verif.T_PostAckHB.C74_post_ack_done",
    "Verif.T_PostAckHB.C74_post_ack_orders"
   ],
   "note": "The memory of the poll operations and their resolvers is the subject of C54 and C55. The relaxed store of acks_left before the node is linked counts as part of its construction. The orders are those of the two fetch_sub(); the mutex and the resolvers synchronize as in the code."
  },
  {
   "property": "C75",
   "status": "proved",
   "theorems": [
    "Verif.T_CancelHB.C75_cancel_race_free",
    "Verif.T_CancelHB.C75_cancel_functor",
    "Verif.T_CancelHB.C75_cancel_query",
    "Verif.T_CancelHB.C75_cancel_functor_query",
    "Verif.T_CancelHB.C75_cancel_set",
    "Verif.T_CancelHB.C75_cancel_reset",
    "Verif.T_CancelHB.C75_cancel_new"
   ],
   "note": "Client rules: those of C34 (k_rule in S_Cancel.v), the calls on one callback or observer are ordered, its destruction happens after the beginning of the call of its functor, the destruction of an event happens after the calls that use it."
  },
  {
   "property": "C76",
   "status": "partial",
   "theorems": [
    "Verif.T_RunHB.C76_run_race_free",
    "Verif.T_RunHB.C76_run_sees",
    "Verif.T_RunHB.C76_run_started",
    "Verif.T_RunHB.C76_run_race_refuted",
    "Verif.T_RunHB.C76_run_race_iff",
    "Verif.T_RunHB.C76_detach_spawn_race_free",
    "Verif.T_RunHB.C76_detach_spawn_sees"
   ],
   "note": "True for detach() and spawn(). False for run(): done and value are not atomic, hence an operation that completes on another thread races with the loop of run() (C76_run_race_refuted). C76_run_race_iff states exactly when run() is free of data races: the operation completes inside of start() or wait(), and these calls synchronize with the completing thread; then the rest of the statement holds."
  },
  {
   "property": "C77",
   "status": "partial",
   "theorems": [
    "Verif.T_PostAckMove.C77_handle_owner",
    "Verif.T_PostAckMove.C77_handle_kept",
    "Verif.T_PostAckMove.C77_handle_drop",
    "Verif.T_PostAckMove.C77_handle_calls",
    "Verif.T_PostAckMove.C77_handle_once",
    "Verif.T_PostAckMove.C77_handle_acked",
    "Verif.T_PostAckMove.C77_handle_read",
    "Verif.T_PostAckMove.C77_handle_bool",
    "Verif.T_PostAckMove.C77_handle_safe",
    "Verif.T_PostAckMove.C77_handle_fail",
    "Verif.T_PostAckMove.C77_handle_bool_refuted"
   ],
   "note": "Refuted: after ack() operator bool is still true although the post may be gone (C77_handle_bool_refuted); all the rest is proved."
  },
  {
   "property": "C78",
   "status": "proved",
   "theorems": [
    "Verif.T_GeneratorMove.C78_generator_owner",
    "Verif.T_GeneratorMove.C78_generator_destroyed",
    "Verif.T_GeneratorMove.C78_generator_next",
    "Verif.T_GeneratorMove.C78_generator_frame",
    "Verif.T_GeneratorMove.C78_generator_values",
    "Verif.T_GeneratorMove.C78_generator_safe"
   ],
   "note": "The two misuses are characterised exactly by C78_generator_safe."
  },
  {
   "property": "C79",
   "status": "proved",
   "theorems": [
    "Verif.T_WaitGroupC.C79_wait_group_once",
    "Verif.T_WaitGroupC.C79_wait_group_cancelled",
    "Verif.T_WaitGroupC.C79_wait_group_woken",
    "Verif.T_WaitGroupC.C79_wait_group_pending",
    "Verif.T_WaitGroupC.C79_wait_group_finishes",
    "Verif.T_WaitGroupC.C79_wait_group_progress",
    "Verif.T_WaitGroupC.C79_wait_group_done_enabled",
    "Verif.T_WaitGroupC.C79_wait_group_true",
    "Verif.T_WaitGroupC.C79_wait_group_known",
    "Verif.T_WaitGroupC.C79_wait_group_false",
    "Verif.T_WaitGroupC.C79_wait_group_default_token",
    "Verif.T_WaitGroupC.C79_wait_group_event_clean",
    "Verif.T_WaitGroupC.C79_wait_group_asserts",
    "Verif.T_WaitGroupC.C79_wait_group_safe"
   ],
   "note": "The rule of done() (the add() of its unit happens before it, one call per unit) is built into the model. The failures that remain without the rules of C04 and C18 are shown by examples."
  },
  {
   "property": "C80",
   "status": "proved",
   "theorems": [
    "Verif.T_WaitGroupHB.C80_wait_group_norace",
    "Verif.T_WaitGroupHB.C80_wait_group_eager",
    "Verif.T_WaitGroupHB.C80_wait_group_sees",
    "Verif.T_WaitGroupHB.C80_wait_group_visible",
    "Verif.T_WaitGroupHB.C80_wait_group_calls",
    "Verif.T_WaitGroupHB.C80_wait_group_functional",
    "Verif.T_WaitGroupHB.C80_wait_group_done",
    "Verif.T_WaitGroupHB.C80_wait_group_orders"
   ],
   "note": "Runs of M_WaitGroupHB are runs of M_WaitHB over M_WaitGroupC; which values of the counter a thread can still read is derived from the happens-before relation."
  },
  {
   "property": "C81",
   "status": "proved",
   "theorems": [
    "Verif.T_WaitLists.C81_queue",
    "Verif.T_WaitLists.C81_queue_hooks",
    "Verif.T_WaitLists.C81_recurring_event",
    "Verif.T_WaitLists.C81_recurring_event_hooks",
    "Verif.T_WaitLists.C81_wait_group",
    "Verif.T_WaitLists.C81_wait_group_hooks",
    "Verif.T_WaitLists.C81_future",
    "Verif.T_WaitLists.C81_future_hooks",
    "Verif.T_WaitLists.C81_post_ack",
    "Verif.T_WaitLists.C81_post_ack_hooks"
   ],
   "note": "Conservative extension: the runs of the machine with hooks are exactly the runs of M_Wait, for each of the five primitives. The queue of posts of post_ack is checked in M_PostAck itself."
  },
  {
   "property": "C82",
   "status": "partial",
   "theorems": [
    "Verif.T_WaitLife.C82_queue",
    "Verif.T_WaitLife.C82_queue_early_partial",
    "Verif.T_WaitLife.C82_recurring_event",
    "Verif.T_WaitLife.C82_recurring_event_early_partial",
    "Verif.T_WaitLife.C82_wait_group",
    "Verif.T_WaitLife.C82_wait_group_early_partial",
    "Verif.T_WaitLife.C82_future",
    "Verif.T_WaitLife.C82_future_early_partial",
    "Verif.T_WaitLife.C82_post_ack",
    "Verif.T_WaitLife.C82_post_ack_early_partial",
    "Verif.T_WaitLife.C82_queue_early_refuted"
   ],
   "note": "The early destruction is refuted (C82_queue_early_refuted), with the exact cause in C82_*_early_partial; destruction after start() and complete() returned is proved for all five primitives."
  },
  {
   "property": "C83",
   "status": "partial",
   "theorems": [
    "Verif.T_WaitLife.C83_queue",
    "Verif.T_WaitLife.C83_recurring_event",
    "Verif.T_WaitLife.C83_wait_group",
    "Verif.T_WaitLife.C83_oneshot_event",
    "Verif.T_WaitLife.C83_sequenced_event_partial",
    "Verif.T_WaitLife.C83_sequenced_event_refuted",
    "Verif.T_WaitLife.C83_barrier_partial",
    "Verif.T_WaitLife.C83_barrier_refuted"
   ],
   "note": "Proved for queue, recurring_event, wait_group and oneshot_event. Refuted for sequenced_event and barrier, which are safe when all raise()/arrive() calls are past the inner raise()."
  },
  {
   "property": "C84",
   "status": "partial",
   "theorems": [
    "Verif.T_QueueHB.C84_queue_refuted",
    "Verif.T_QueueHB.C84_queue_locked_partial",
    "Verif.T_QueueHB.C84_queue_ordered_partial",
    "Verif.T_QueueHB.C84_queue_next_partial",
    "Verif.T_QueueHB.C84_queue_count_partial"
   ],
   "note": "Refuted for empty() called concurrently with put() (C84_queue_refuted). Proved: no race without empty(), no race with it if the client orders the calls, and the meaning of its result."
  },
  {
   "property": "C85",
   "status": "proved",
   "theorems": [
    "Verif.T_MutexLife.C85_mutex",
    "Verif.T_MutexLife.C85_shared_mutex"
   ],
   "note": "Interleaving semantics; the critical section of the platform mutex is one step, i.e. the platform mutex may be destroyed by its next owner as POSIX requires. The restriction to an exclusive last owner is necessary (Example shared_last)."
  },
  {
   "property": "C86",
   "status": "proved",
   "theorems": [
    "Verif.T_SequencedHB.C86_sequenced_sees",
    "Verif.T_SequencedHB.C86_sequenced_next",
    "Verif.T_SequencedHB.C86_sequenced_calls",
    "Verif.T_SequencedHB.C86_sequenced_value",
    "Verif.T_SequencedHB.C86_sequenced_live",
    "Verif.T_SequencedHB.C86_sequenced_raise",
    "Verif.T_SequencedHB.C86_sequenced_safe",
    "Verif.T_SequencedHB.C86_sequenced_eager",
    "Verif.T_SequencedHB.C86_sequenced_functional",
    "Verif.T_SequencedHB.C86_sequenced_orders"
   ],
   "note": "Happens-before over the cancellable-wait model plus stale reads of seq_. Client rule: the caller of async_wait(t) knows a raise() that made t or a later number."
  },
  {
   "property": "C87",
   "status": "proved",
   "theorems": [
    "Verif.T_MutexWD.C87_mutex",
    "Verif.T_MutexWD.C87_mutex_safe"
   ],
   "note": "Each step of start() and unlock() and each successful try_lock() is recorded as an access; failing tries are the caller's business. The thread of the last unlock() knows all of them."
  },
  {
   "property": "C88",
   "status": "partial",
   "theorems": [
    "Verif.T_MutexWD.C88_shared_mutex_refuted",
    "Verif.T_MutexWD.C88_shared_mutex_repaired",
    "Verif.T_MutexWD.C88_shared_mutex_partial"
   ],
   "note": "Refuted for the code: the last reader passes the mutex to a writer without an acquire operation (lines 559-586). Proved for the code if no exclusive operation suspends, and in general if that hand-off acquires."
  },
  {
   "property": "C89",
   "status": "partial",
   "theorems": [
    "Verif.T_Erased.C89_any_receiver",
    "Verif.T_Erased.C89_callback_refuted",
    "Verif.T_Erased.C89_callback_partial",
    "Verif.T_Erased.C89_callback_stateless_partial"
   ],
   "note": "Proved for any_receiver (C89_any_receiver). Refuted for callback: operator() passes the storage by value (basic.hpp 259, 286), so that the changes a call makes in a mutable functor are lost (C89_callback_refuted). Proved for callback: each call runs a fresh copy of the functor that the callback was constructed with (C89_callback_partial), which is what the property says if calls do not change the functor (C89_callback_stateless_partial)."
  },
  {
   "property": "C90",
   "status": "proved",
   "theorems": [
    "Verif.T_Erased.C90_failures",
    "Verif.T_Erased.C90_callback_bool",
    "Verif.T_Erased.C90_arm_once"
   ],
   "note": ""
  },
  {
   "property": "C91",
   "status": "proved",
   "theorems": [
    "Verif.T_Nest.C91_nested_program",
    "Verif.T_Nest.C91_nested_prefix",
    "Verif.T_Nest.C91_nested_sequential_safe"
   ],
   "note": "Executions that run into the defects of C40 and C42 are excluded (they fail in the model); lambda is covered by C43."
  },
  {
   "property": "C92",
   "status": "proved",
   "theorems": [
    "Verif.T_Nest.C92_nested_once",
    "Verif.T_Nest.C92_nested_structured",
    "Verif.T_Nest.C92_nested_complete"
   ],
   "note": "Same exclusions as C91."
  },
  {
   "property": "C93",
   "status": "proved",
   "theorems": [
    "Verif.T_NestHB.C93_nested_visibility",
    "Verif.T_NestHB.C93_nested_program"
   ],
   "note": "The cancel() calls of race_and_cancel do not happen before the notification, see C42 and the example in T_NestHB.v."
  },
  {
   "property": "C94",
   "status": "proved",
   "theorems": [
    "Verif.T_WaitGroupWD.C94_wait_group",
    "Verif.T_WaitGroupWD.C94_wait_group_over",
    "Verif.T_WaitGroupWD.C94_wait_group_once",
    "Verif.T_WaitGroupWD.C94_wait_group_live",
    "Verif.T_WaitGroupWD.C94_wait_group_orders"
   ],
   "note": "Without cancellation (the weak-memory model M_WaitGroupW). The destruction with cancellation is C83 (sequentially consistent)."
  },
  {
   "property": "C95",
   "status": "proved",
   "theorems": [
    "Verif.T_OneshotWD.C95_oneshot",
    "Verif.T_OneshotWD.C95_oneshot_over",
    "Verif.T_OneshotWD.C95_oneshot_waits",
    "Verif.T_OneshotWD.C95_oneshot_orders"
   ],
   "note": "The rule for the client is built into the label JDel; the destruction is an access to the whole object (implicit destructor)."
  },
  {
   "property": "C96",
   "status": "proved",
   "theorems": [
    "Verif.T_Robust.C96_mutex_same",
    "Verif.T_Robust.C96_mutex_same_quiet",
    "Verif.T_Robust.C96_mutex_fifo",
    "Verif.T_Robust.C96_mutex_try",
    "Verif.T_Robust.C96_mutex_barge",
    "Verif.T_Robust.C96_mutex_idle",
    "Verif.T_Robust.C96_mutex_pending",
    "Verif.T_Robust.C96_oneshot_same",
    "Verif.T_Robust.C96_oneshot_fail"
   ],
   "note": "A refinement in both directions between M_MutexW and M_Mutex; for oneshot_primitive from M_OneshotW to M_OneshotPrim (raise() is reported when it is called in one model and when it executes the exchange in the other, therefore the converse is not claimed). Examples with stale reads and their interleaving."
  },
  {
   "property": "C97",
   "status": "proved",
   "theorems": [
    "Verif.T_InGroup.C97_wait_in_group_safe",
    "Verif.T_InGroup.C97_wait_in_group_visible",
    "Verif.T_InGroup.C97_wait_in_group_life",
    "Verif.T_InGroup.C97_wait_in_group_live",
    "Verif.T_InGroup.C97_wait_in_group_after",
    "Verif.T_InGroup.C97_wait_in_group_waits",
    "Verif.T_InGroup.C97_wait_in_group_orders"
   ],
   "note": "The rules for the clients are built into the labels of M_InGroup: the wrapped operations own their units, ILDel needs the notification of the receiver. Liveness is stated for executions after which no call of done() and no notification loop is in flight."
  },
  {
   "property": "C98",
   "status": "partial",
   "theorems": [
    "Verif.T_InGroup.C98_wait_in_group_early_refuted",
    "Verif.T_InGroup.C98_wait_in_group_early_partial"
   ],
   "note": "Refuted: receiver_::set_value() calls done(), which notifies the wait, and then uses op_.originalr_ (C98_wait_in_group_early_refuted). What holds is C98_wait_in_group_early_partial: the original operations have completed and what they did happens before the notification. Missing: the last use of the wrapped operation itself."
  },
  {
   "property": "C99",
   "status": "proved",
   "theorems": [
    "Verif.T_Connect.C99_connect_lifetimes"
   ],
   "note": "One thread; the operations of when_all and race_and_cancel complete one after the other (interleavings are C91). Every operation is started and completes before it is destroyed."
  },
  {
   "property": "C100",
   "status": "partial",
   "theorems": [
    "Verif.T_Connect.C100_race_connect_refuted",
    "Verif.T_Connect.C100_with_cancel_cb_connect_refuted",
    "Verif.T_Connect.C100_connect_exactly_partial"
   ],
   "note": "Refuted for race_and_cancel (C100_race_connect_refuted: the events of the tokens are constructed after and destroyed before the operations) and for with_cancel_cb (C100_with_cancel_cb_connect_refuted: the downstream receiver is initialized after and destroyed before the operation). C100_connect_exactly_partial: a nesting accesses a member outside of its lifetime if and only if it violates the conditions of C99. Missing: the statement itself, it is false."
  },
  {
   "property": "C101",
   "status": "proved",
   "theorems": [
    "Verif.T_Unstarted.C101_unstarted_lifetimes",
    "Verif.T_Unstarted.C101_unstarted_exactly"
   ],
   "note": "Same simplifications as C99. That let() cannot be destroyed before start() is the defect C45."
  },
  {
   "property": "C102",
   "status": "proved",
   "theorems": [
    "Verif.T_NestLaws.C102_nested_laws_meaning",
    "Verif.T_NestLaws.C102_nested_laws",
    "Verif.T_NestLaws.C102_nested_laws_prefix",
    "Verif.T_NestLaws.C102_nested_sequential_exactly",
    "Verif.T_NestLaws.C102_nested_laws_code",
    "Verif.T_NestLaws.C102_nested_laws_code_prefix"
   ],
   "note": "Refactoring rules. The laws are about the events of the program (user functions, operations, the receiver), not about where operations are stored. The laws of when_all() and the congruence below when_all() and race_and_cancel() are about the structured program of C91, which does not fix the order in which operations are started; equality of the executions of the code is shown for expressions without these two. Failing executions (C40, C42) are not executions of the program."
  },
  {
   "property": "C103",
   "status": "proved",
   "theorems": [
    "Verif.T_NestDet.C103_nested_deterministic",
    "Verif.T_NestDet.C103_nested_answers"
   ],
   "note": "C103_when_all shows that the order of events is not determined once when_all() is used."
  },
  {
   "property": "C104",
   "status": "proved",
   "theorems": [
    "Verif.T_NestStop.C104_nested_bounded",
    "Verif.T_NestStop.C104_nested_settles",
    "Verif.T_NestStop.C104_nested_sequential_settles"
   ],
   "note": "Failures are those of C40 and C42. C104_loop shows that a repeat_while() can go on forever if its condition keeps returning true."
  },
  {
   "property": "C105",
   "status": "partial",
   "theorems": [
    "Verif.T_NestStack.C105_repeat_while_stack_refuted",
    "Verif.T_NestStack.C105_repeat_while_leaf_refuted",
    "Verif.T_NestStack.C105_sequence_stack",
    "Verif.T_NestStack.C105_nested_stack_partial",
    "Verif.T_NestStack.C105_nested_stack_same",
    "Verif.T_NestStack.C105_nested_stack_return",
    "Verif.T_NestStack.C105_nested_stack_later",
    "Verif.T_NestStack.C105_nested_stack_async_partial",
    "Verif.T_NestStack.C105_nested_stack_async_same"
   ],
   "note": "Refuted: start_inline() always returns false, so that the loop in loop_() is never used for a second iteration; an operation that completes inside of start() calls set_value() of the receiver, which calls loop_() again on top of it, three frames per iteration (C105_repeat_while_stack_refuted for invocable(), C105_repeat_while_leaf_refuted for operations of the client). Proved: the stack is bounded by a number that depends on the expression only, if operations of the client do not complete inside of start() and each iteration of each loop waits for one (C105_nested_stack_async_partial), and it is always at most linear in the number of steps since an operation returned from start() without having completed (C105_nested_stack_partial)."
  },
  {
   "property": "C106",
   "status": "proved",
   "theorems": [
    "Verif.T_NestSafe.C106_nested_when_all_safe",
    "Verif.T_NestSafe.C106_nested_when_all_same",
    "Verif.T_NestSafe.C106_nested_when_all_settles"
   ],
   "note": "C106_no_wait and C106_early show that each of the two conditions is needed: without it the assertion after line 713 fails (C40)."
  }
 ]
}