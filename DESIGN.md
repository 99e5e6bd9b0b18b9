# Formal model of libasync in Rocq (Coq 8.16.1)

## 1. Method

Every component is a small executable transition system in Gallina

    init : state        step : state -> label -> outcome

`outcome` is `Next s' events` (the step is taken, API-level events are emitted), `Disabled` (the label is not
applicable) or `Fail why events` (failing assertion, use after free, unlinking a node that is not linked, null
dereference, self-deadlock, data race, ...).  `theories/Lts.v` defines runs (lists of labels) and the induction principles.
All theorems quantify over *all* lists of labels, i.e. all schedules of an unbounded number of operations, threads and
events; they are proved by inductive invariants.

* One step is one atomic access (`fetch_or`, CAS, load, ...) or one critical section of a platform mutex.  A critical
  section is one step only if at most one access in it can race with code outside of the mutex; otherwise the platform
  mutex is explicit in the state (mutex, shared_mutex, cancellation_callback's constructor).
* Each library call in flight is an *activity* with an explicit program counter.  Activities interleave arbitrarily.
  No libasync lock is held while a receiver runs, therefore a re-entrant call made by a completion handler is a special
  case of interleaving (the outer activity is not scheduled until the inner one has finished).  The one exception,
  the functor of a cancellation_callback that is called by the constructor inside of the critical section, is modelled.
* Undefined behaviour and failing `assert`s are `Fail`.  Client rules (such as "only an owner calls unlock()") are
  prefix-closed predicates on the trace of API events and appear as hypotheses of the theorems.
* Specifications talk about the trace of API events (calls, returns, notifications of receivers), not about the state of
  the model.

Files in `rocq/theories`:

| files | content |
|-------|---------|
| `Lts.v`, `ListFacts.v` | runs, induction principles, tactics for witnesses; facts about lists |
| `M_*.v` | models: definitions only, each with the file and lines of /repo it represents and its simplifications |
| `S_*.v` | specifications: functions and predicates on traces, client rules |
| `P_*.v` | invariants and proofs |
| `T_*.v` | the property theorems `Cnn_...`, each closed by one `exact` and followed by `Print Assumptions`, with examples that meet the hypotheses |

`properties.jsonl` has the English statements, `MANIFEST.json` (generated by `tools/manifest.py` from the theorem names and
`tools/notes.json`) the status of each property.

A property that is false for the code has a theorem `..._refuted` that exhibits a concrete execution, and beside it the
strongest statement we could prove (`..._partial`, or under an additional client rule).  Its status is "partial".

## 2. Trusted base

* Coq's kernel, including its reduction of closed terms (`vm_compute` is used for witnesses and for one finite closed
  check in `P_WaitView`).
* Axioms: none.  `Print Assumptions` below each theorem in `T_*.v` prints "Closed under the global context".
* The correspondence between the C++ code and the model, which is by reading (section 3 lists what is not covered).
* The platform mutex is a correct mutual-exclusion lock (`platform::mutex`, the client's choice); `frg::intrusive_list`,
  `frg::optional`, `frg::manual_box`, `frg::tuple` behave as mathematical lists, options, ...; erasing a node that is not
  linked, dereferencing an empty optional, constructing a constructed box or destructing an empty one is a failure
  (`frg` asserts this or it is undefined).
  `M_Wait` uses mathematical lists; `M_WaitLists` adds the hooks of the nodes, the assertions of `frg::intrusive_list` about them and the
  accesses to neighbours, and C81 shows that they never fail, so that nothing is lost.  The other models check the nodes of their lists themselves.
* Coroutines: the C++20 semantics of suspension, `resume()`, `done()`, `destroy()`, symmetric order of `await_suspend`.
* Memory: sequential consistency in all models but the `M_*W.v` and `M_*HB.v` ones.  Those use `M_Weak.v`, an operational fragment of
  the C++20 model: modification orders, views, release sequences, acquire/release/relaxed accesses, stale reads.  Excluded
  are load buffering (program order and reads-from are acyclic), fences (but see `M_HB`), consume and seq_cst.
  `M_WaitHB` adds the happens-before relation to the runs of `M_Wait`: every atomic access there is a read-modify-write, so
  that the interleavings are the executions unless there is a data race, which is a failure of the model.  Threads learn by locking the mutex
  of the primitive or of an event and by the fetch_or on `state_`; the loops in raise(), cancel(), ... do not learn from the calls they
  make (fewer edges, so that the theorems are stronger).  A primitive that loads an atomic in its condition (wait_group, sequenced_event, barrier)
  is not an instance, because the load may be stale; `M_WaitGroupC` is an instance of `M_Wait` in which the values that loads return are part of the labels; `M_WaitGroupHB` adds the
  edges of `ctr_` to `M_WaitHB` and derives from happens-before which old values a thread can still read; `M_SequencedHB` does the same for `seq_`.
  `M_HB` does the same for the other models whose atomics are accessed by read-modify-write operations only (`M_ResultHB`, ...); it includes acquire fences.
* Machine integers do not wrap around (64-bit sequence numbers, 32-bit counters) unless a model says otherwise;
  identifiers of objects are not re-used, i.e. a new object at an old address is a new object (where the code compares
  addresses, in `oneshot_primitive`, the theorems explain why this does not matter).
* Allocation does not fail, user code does not throw.

## 3. What is modelled

Lines refer to /repo/include/async.

| header | modelled | model | not modelled |
|--------|----------|-------|--------------|
| algorithm.hpp | invocable 34-76, transform 82-173, ite 179-244, repeat_while 250-330, let 449-507, sequence 513-660, lambda 753-802 | `M_Algo` | templates, connect_helper (guaranteed elision) 13-32 |
| | nestings of all of these (except lambda) with race_and_cancel and when_all | `M_Nest`, `M_NestHB` | storage (in the other models) |
| | call stack of these nestings without race_and_cancel and when_all | `M_NestStack` | tail calls, frames of user functions |
| | constructors, destructors and get_env() of nested operations (also with_cancel_cb and wait_in_group) | `M_Connect`, `M_Unstarted` | other threads, values, operations that are destroyed after start() but before they complete |
| | race_and_cancel 336-443 | `M_Race`, `M_RaceHB` | |
| | when_all 666-747 | `M_WhenAll`, `M_WhenAllHB` | |
| barrier.hpp | all | `M_Recurring`, `M_BarrierW` | |
| basic.hpp | run 372-461; any_receiver 196-248, callback 250-294, run_queue_item::arm 302-322 | `M_Run`, `M_RunHB`; `M_Erased` | concepts 40-117, dummy_receiver, run_queue 324-357 (member functions are declared only), forever (never completes) |
| | detach 491-554, spawn 556-604 | `M_Run`, `M_RunHB` | |
| | sender_awaiter 119-186, detached 467-489 | `M_Coro` | |
| cancellation.hpp | cancellation_event, token, callback, observer 12-207, 326-352 | `M_Cancel`, `M_CancelHB` | |
| | cancellation_resolver 209-324 with cancel() | `M_Wait`, `M_WaitHB` | |
| | suspend_indefinitely 376-452 | `M_Suspend`, `M_SuspendHB` | |
| | with_cancel_cb 484-592 | `M_WithCancel`, `M_WithCancelHB` | |
| execution.hpp | start_inline always returns false 63-77 (used by `M_WhenAll`, `M_Race`) | | customization points |
| generator.hpp | all | `M_Generator`, `M_GeneratorMove` | |
| mutex.hpp | mutex 9-179 | `M_Mutex`, `M_MutexW`, `M_MutexWD` | |
| | shared_mutex 181-612 | `M_SharedMutex`, `M_SharedMutexW`, `M_SharedMutexWD` | |
| oneshot-event.hpp | oneshot_event 11-25 | `M_WaitGroup`, `M_WaitGroupW`, `M_WaitGroupWD` (a wait_group with count 1) | |
| | oneshot_primitive 27-128 | `M_OneshotPrim`, `M_OneshotW`, `M_OneshotWD` | |
| post-ack.hpp | all | `M_PostAck`, `M_PostAckMove`, `M_PostAckHB` | none |
| promise.hpp | value and waiting | `M_Future` | |
| | handles and reference counts | `M_Handles`, `M_PromiseHB` | |
| queue.hpp | all | `M_Queue`, `M_QueueHB` | |
| recurring-event.hpp | all | `M_Recurring` | |
| result.hpp | all | `M_Result`, `M_ResultHB`, `M_Coro` | exceptions |
| sequenced-event.hpp | all | `M_Recurring`, `M_SequencedW`, `M_SequencedHB` | |
| wait-group.hpp | wait_group 16-186, wait_in_group 188-251 | `M_WaitGroup`, `M_WaitGroupW`, `M_WaitGroupWD`, `M_WaitGroupC`, `M_WaitGroupHB`, `M_InGroup`, `M_Connect` | |

The five users of cancellation_resolver (queue, recurring_event, wait_group, future, post_ack) are instances of one
generic machine (`M_Wait`, parametrized by what a primitive does in its critical sections); C01-C05 are proved once, from laws
about the primitive (`P_WaitView`, `P_Wait`), and instantiated five times.

## 4. Properties

| ids | component | model | theorems |
|-----|-----------|-------|----------|
| C01-C05 | cancellable waits | `M_Wait` and instances | `T_Queue`, `T_Recurring`, `T_WaitGroup`, `T_Future`, `T_PostAck` |
| C06-C08 | queue | `M_Queue` | `T_Queue` |
| C09-C10 | recurring_event | `M_Recurring` | `T_Recurring` |
| C11-C15 | sequenced_event, barrier | `M_Recurring` | `T_Sequenced` |
| C16-C21 | wait_group, wait_in_group, oneshot_event | `M_WaitGroup` | `T_WaitGroup` |
| C22 | oneshot_primitive | `M_OneshotPrim` | `T_OneshotPrim` |
| C23-C25 | mutex | `M_Mutex` | `T_Mutex` |
| C26-C29 | shared_mutex | `M_SharedMutex` | `T_SharedMutex` |
| C30 | future | `M_Future` | `T_Future` |
| C31 | promise/future handles | `M_Handles` | `T_Handles` |
| C32-C33 | post_ack | `M_PostAck` | `T_PostAck` |
| C34-C37 | cancellation_event, callback, observer | `M_Cancel` | `T_Cancel` |
| C38, C39 | suspend_indefinitely, with_cancel_cb | `M_Suspend`, `M_WithCancel` | `T_Suspend` |
| C40-C42 | when_all, race_and_cancel | `M_WhenAll`, `M_Race` | `T_Parallel` |
| C43-C45 | sequential algorithms | `M_Algo` | `T_Algo` |
| C46 | result | `M_Result` | `T_Result` |
| C47, C48 | generator | `M_Generator` | `T_Generator` |
| C49, C50 | detach, spawn, run | `M_Run` | `T_Run` |
| C51 | mutex, C++ memory model | `M_MutexW` | `T_MutexW` |
| C52, C53 | shared_mutex, C++ memory model | `M_SharedMutexW` | `T_SharedMutexW` |
| C54, C55 | waits of queue, recurring_event, future, post_ack: happens-before | `M_WaitHB`, `M_WaitLocks` | `T_WaitHB` |
| C56, C57 | result: happens-before | `M_HB`, `M_ResultHB` | `T_ResultHB` |
| C58, C59 | wait_group, C++ memory model | `M_WaitGroupW` | `T_WaitGroupW` |
| C60, C61 | barrier, C++ memory model | `M_BarrierW` | `T_BarrierW` |
| C62, C63 | sequenced_event, C++ memory model | `M_SequencedW` | `T_SequencedW` |
| C64, C65 | oneshot_primitive, C++ memory model | `M_OneshotW` | `T_OneshotW` |
| C66 | when_all: happens-before | `M_HB`, `M_WhenAllHB` | `T_WhenAllHB` |
| C67 | race_and_cancel: happens-before | `M_HB`, `M_RaceHB` | `T_RaceHB` |
| C68 | with_cancel_cb: happens-before | `M_HB`, `M_WithCancelHB` | `T_WithCancelHB` |
| C69-C71 | co_await | `M_Coro` | `T_Coro` |
| C72 | suspend_indefinitely: happens-before | `M_HB`, `M_SuspendHB` | `T_SuspendHB` |
| C73 | promise / future: happens-before, reference count | `M_HB`, `M_PromiseHB` | `T_PromiseHB` |
| C74 | post_ack: happens-before, acks_left | `M_HB`, `M_PostAckHB` | `T_PostAckHB` |
| C75 | cancellation_event, callback, observer: happens-before | `M_HB`, `M_CancelHB` | `T_CancelHB` |
| C76 | run, detach, spawn: happens-before | `M_HB`, `M_RunHB` | `T_RunHB` |
| C77 | post_ack_handle objects | `M_PostAckMove` | `T_PostAckMove` |
| C78 | generator objects | `M_GeneratorMove` | `T_GeneratorMove` |
| C79 | wait_group with cancellation, C++ memory model | `M_Wait`, `M_WaitGroupC` | `T_WaitGroupC` |
| C80 | visibility and race freedom of wait_group with cancellation | `M_WaitHB`, `M_WaitGroupC`, `M_WaitGroupHB` | `T_WaitGroupHB` |
| C81 | intrusive lists of cancellable waits: hooks | `M_Wait`, `M_WaitLists` | `T_WaitLists` |
| C82 | lifetime of cancellation_event | `M_Wait`, `M_WaitLife` | `T_WaitLife` |
| C83 | lifetime of queue, recurring_event, sequenced_event, barrier, wait_group, oneshot_event | `M_Wait`, `M_WaitLife` | `T_WaitLife` |
| C84 | queue: races on its own memory, result of empty() | `M_Queue`, `M_HB`, `M_QueueHB` | `T_QueueHB` |
| C85 | lifetime of mutex and shared_mutex | `M_Mutex`, `M_SharedMutex` | `T_MutexLife` |
| C86 | sequenced_event with cancellation, C++ memory model | `M_WaitHB`, `M_SequencedHB` | `T_SequencedHB` |
| C87 | lifetime of mutex, C++ memory model | `M_MutexWD` | `T_MutexWD` |
| C88 | lifetime of shared_mutex, C++ memory model (refuted) | `M_SharedMutexWD` | `T_MutexWD` |
| C89 | any_receiver, callback (refuted) | `M_Erased` | `T_Erased` |
| C90 | callback, run_queue_item: failures | `M_Erased` | `T_Erased` |
| C91, C92 | nestings of the algorithms with when_all and race_and_cancel | `M_Nest` | `T_Nest` |
| C93 | nestings of the algorithms: happens-before | `M_Nest`, `M_NestHB` | `T_NestHB` |
| C94 | lifetime of wait_group and oneshot_event, C++ memory model | `M_WaitGroupW`, `M_WaitGroupWD` | `T_WaitGroupWD` |
| C95 | lifetime of oneshot_primitive, C++ memory model | `M_OneshotW`, `M_OneshotWD` | `T_OneshotWD` |
| C96 | mutex and oneshot_primitive: C++ memory model against interleavings | `M_Mutex`, `M_MutexW`, `M_OneshotPrim`, `M_OneshotW` | `T_Robust` |
| C97 | wait_in_group, C++ memory model | `M_WaitGroupW`, `M_WaitGroupWD`, `M_InGroup` | `T_InGroup` |
| C98 | wait_in_group: operations destroyed after a wait (refuted) | `M_InGroup` | `T_InGroup` |
| C99 | construction and destruction of nested operations, get_env() | `M_Connect` | `T_Connect` |
| C100 | the same for any client (refuted) | `M_Connect` | `T_Connect` |
| C101 | nested operations that are destroyed without start() | `M_Connect`, `M_Unstarted` | `T_Unstarted` |
| C102 | laws of nestings; completeness for sequential ones | `M_Nest` | `T_NestLaws` |
| C103 | determinism of sequential nestings | `M_Nest` | `T_NestDet` |
| C104 | livelock freedom of nestings | `M_Nest` | `T_NestStop` |
| C105 | call stack of nestings (refuted) | `M_NestStack` | `T_NestStack` |
| C106 | nestings with when_all in an event loop | `M_Nest` | `T_NestSafe` |

## 5. Defects found (refuted properties)

Each one is a theorem `..._refuted` with a concrete execution of the model.

* C04: `cancellation_resolver::complete()` reads `event_` after publishing its bit (cancellation.hpp 287-307); if the operation is
  destroyed by its receiver in between, this is a use after free.
* C12, C13: `sequenced_event::raise()` and `barrier` publish the new number before raising the inner event; the late raise wakes
  waiters of the next phase.
* C18: `wait_group`: `add()` after zero makes a pending cancellation erase a node that is in no list.
* C21: a second `oneshot_event::raise()` fails an assertion.
* C27, C29: `shared_mutex`: readers that were already chosen can be overtaken by new readers; a shared acquisition suspends
  behind a waiting writer (contrary to the documentation).
* C31: `future` copy assignment from an empty future / to itself.
* C35, C36: `cancellation_callback`: destruction while cancel() is about to call the functor, `unbind()` then destructor,
  functor called in the constructor that uses its token; `reset()` with old callbacks.
* C40: `when_all` with senders that all complete inside of `start()`.
* C42: `race_and_cancel` is used by the winner after the last completion notified the receiver.
* C45: `~let_operation` before `start()`.
* C48: `generator`: `next()` after the end.
* C50: `run()` calls wait() after completion on another thread.
* C53: `shared_mutex` under the C++ memory model: `unlock_shared()` hands over to a writer without acquiring what the other
  readers released, and `unlock()` hands over to readers by a relaxed store.
* C56: `result<T>`: the relaxed exchange of `start()` is not ordered with the destruction of the coroutine frame by the receiver.
* C60: `barrier`: a wait that completes in `start()` reads `seq_` by a relaxed load under another mutex than the relaxed store, so that
  it does not see what was done before the arrivals.
* C71: `co_await` of operations that complete inside of `start()`, in a loop, grows the stack with every iteration (`start_inline()` always returns
  false, so that the coroutine is resumed on top of `await_suspend()`).
* C105: `repeat_while()` of operations that complete inside of `start()` grows the stack by three frames per iteration (algorithm.hpp 268-290): for the same reason its
  loop is entered again on top of `start()` for each iteration.
* C76: `run()` reads its flag, a plain bool, while an operation that completes on another thread sets it.
* C82: `cancellation_resolver::complete()` locks the mutex of the event (cancellation.hpp 302) after cancel() has notified the receiver, so that an
  event that is destroyed when its waits are over is used after its destruction even if the operations are kept.
* C83: `sequenced_event::raise()` and `barrier::arrive()` call the inner `raise()` after a waiter may have been notified and have destroyed the object.
* C84: `queue::empty()` reads `buffer_` without the mutex: a data race with put(), maybe_get() or the start of an async_get() on another thread.
* C88: `shared_mutex` under the C++ memory model: because of the same hand-off as in C53, the last exclusive owner must not destroy the object without further
  synchronization; accesses of earlier `unlock_shared()` calls are not ordered before its return.
* C89: `callback::operator()` passes the stored functor by value (basic.hpp 259, 286), so that what a mutable functor changes in itself is lost after each call.
* C98: `wait_in_group`: done() notifies the waits for the group before the wrapped operation is used for the last time (wait-group.hpp 206-210), so that a client that
  waits for the group before it destroys the wrapped operations has a use after free; it must also wait for their receivers.
* C100: `race_and_cancel_operation` calls the functors and connects their senders before `cs_` is constructed, and destroys `cs_` before the operations (algorithm.hpp 393-405,
  members 426-430), so that a functor, a connect() or a destructor that uses the token accesses an event outside of its lifetime; `with_cancel_cb_operation` connects its sender before `dr_` is
  initialized and destroys `dr_` first (cancellation.hpp 487-491, 543-545), so that get_env() must not be called in connect() or in a destructor below it.
* C77: `post_ack_handle::operator bool` stays true after `ack()`, when the handle must not be dereferenced any more.

## 6. Testing the theorems against wrong programs

`tools/mutate.py seeded/mutants.json [id ...]` applies each seeded bug (an edit of one model definition) to a scratch copy outside
of the repository, rebuilds the files that depend on it, replaces broken proofs by Admitted and reports which property
theorems depend on one of them.  `seeded/LOG.jsonl` has one line per attempt, including the theorems that were tightened because a
bug was not noticed.
