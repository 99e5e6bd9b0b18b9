(** Property theorems for the memory of async::queue itself and for queue::empty(): C84.
    Every theorem quantifies over all schedules, with arbitrary knowledge of the threads about each other. *)
From Coq Require Import List Arith Bool.
From Verif Require Import Lts M_Wait S_Wait P_Wait M_Queue S_Queue P_Queue M_HB M_QueueHB S_QueueHB P_QueueHB.
Import ListNotations.

Notation qmrun T eager c ls := (run (qm_step T eager c) (qm_init T) ls).

(** ** C84: empty() may be called at any time *)
(** False: it reads buffer_ without mutex_.  empty() and put() from two threads are a data race, whichever of them comes first. *)
Theorem C84_queue_refuted : exists put empty, put = QStep (LPrim (QPut 5 : PL (queue_prim nat))) /\ empty = QEmpty /\
  (exists tr, qmrun nat false AnyThread [(put, []); (empty, [])] = Failed DataRace tr) /\
  (exists tr, qmrun nat false AnyThread [(empty, []); (put, [])] = Failed DataRace tr).
Proof. do 2 eexists. split; [reflexivity|]. split; [reflexivity|]. split; eexists; vm_compute; reflexivity. Qed.
Print Assumptions C84_queue_refuted.

(** What does hold: there is no data race on buffer_ and sinks_ without calls of empty() ... *)
Theorem C84_queue_locked_partial : forall T eager c ls tr, no_empty (map fst tr) -> qmrun T eager c ls <> Failed DataRace tr.
Proof. exact (fun T eager c ls tr H => q_no_race eager c ls tr (fun _ => H)). Qed.
Print Assumptions C84_queue_locked_partial.

(** ... nor with them if the calls of put(), emplace(), maybe_get(), empty() and start() are made with a mutex of the client held, or by one thread.
    (cancel() and the calls of the wakers are made anywhere.) *)
Theorem C84_queue_ordered_partial : forall T eager c ls tr, c <> AnyThread -> qmrun T eager c ls <> Failed DataRace tr.
Proof. exact (fun T eager c ls tr H => q_no_race eager c ls tr (fun E => match H E with end)). Qed.
Print Assumptions C84_queue_ordered_partial.

(** As long as there is no data race, empty() tells the truth: a maybe_get() that follows with nothing in between returns null if and only if empty()
    returned true ... *)
Theorem C84_queue_next_partial : forall T eager c ls h tr t1 b t2 r t3, qmrun T eager c ls = Running h tr ->
  map fst tr = t1 ++ EEmpty b :: t2 ++ QE (EPrim (P := queue_prim T) (EMaybeGet r)) :: t3 -> untouched t2 -> (b = true <-> r = None).
Proof. exact (fun T eager c ls h tr t1 b t2 r t3 => q_next eager c ls h tr t1 b t2 r t3). Qed.
Print Assumptions C84_queue_next_partial.

(** ... and when the calls in flight have returned: it returned true if and only if all items put were handed out, to the async_get() operations and the
    maybe_get() calls. *)
Theorem C84_queue_count_partial : forall T eager c ls h tr t1 b t2, qmrun T eager c ls = Running h tr ->
  map fst tr = t1 ++ EEmpty b :: t2 -> untouched t2 -> all_returned (ms_base h) ->
  (b = true <-> puts (others (map fst tr)) = flat_map (handed (reported (others (map fst tr)))) (consumers (others (map fst tr)))).
Proof. exact (fun T eager c ls h tr t1 b t2 => q_count eager c ls h tr t1 b t2). Qed.
Print Assumptions C84_queue_count_partial.

(** ** Witnesses *)
Notation QP := (queue_prim nat).
(** put(5), put(6), a get, a cancelled get that waits, empty() in between *)
Definition qm_demo : list (qm_label nat * hbs) := map (fun l => (l, []))
  [QEmpty; QStep (LPrim (QPut 5 : PL QP)); QStep (LPrim (QPut 6 : PL QP)); QEmpty; QStep (LStart (P := QP) 0 None tt); QStep (LPath 0 PathL);
   QEmpty; QStep (LPrim (QMaybeGet : PL QP)); QEmpty; QStep (LStart (P := QP) 1 (Some 7) tt); QStep (LPath 1 PathL); QStep (LPath 1 PathL);
   QStep (LCancel 7); QStep (LCanNext 0); QStep (LPath 1 PathC); QStep (LPath 1 PathC); QStep (LPath 1 PathC); QStep (LPrim (QMaybeGet : PL QP)); QEmpty].

Definition qm_demo_trace : list (qm_event nat) :=
  [EEmpty true; QE (EPrim (EPut 5 : PE QP)); QE (EPrim (EPut 6 : PE QP)); EEmpty false; QE (EStart (P := QP) 0 None tt); QE (EDone (P := QP) 0 (Some 5));
   EEmpty false; QE (EPrim (EMaybeGet (Some 6) : PE QP)); EEmpty true; QE (EStart (P := QP) 1 (Some 7) tt); QE (ECancel 7); QE (EDone (P := QP) 1 None);
   QE (EPrim (EMaybeGet None : PE QP)); EEmpty true].
Definition trace_of {S E} (r : result S E) : list E := match r with Running _ tr | Failed _ tr => tr | Stuck => [] end.
Definition runs {S E} (r : result S E) : bool := match r with Running _ _ => true | _ => false end.
Example qm_demo_run : forall c, c = OwnMutex \/ c = OneThread ->
  runs (qmrun nat false c qm_demo) = true /\ map fst (trace_of (qmrun nat false c qm_demo)) = qm_demo_trace.
Proof. intros c [-> | ->]; split; vm_compute; reflexivity. Qed.

(** the same without empty(), from any threads *)
Example qm_any_run : let r := qmrun nat false AnyThread (filter (fun l => match fst l with QEmpty => false | _ => true end) qm_demo) in
  runs r = true /\ map fst (trace_of r) = map QE (others qm_demo_trace).
Proof. split; vm_compute; reflexivity. Qed.

Example qm_next_meets : exists t1 b t2 r t3,
  qm_demo_trace = t1 ++ EEmpty b :: t2 ++ QE (EPrim (P := QP) (EMaybeGet r)) :: t3 /\ untouched t2 /\ length t1 = 6.
Proof.
  exists (firstn 6 qm_demo_trace), false, [], (Some 6), (skipn 8 qm_demo_trace). split; [reflexivity|]. split; [intros e []|reflexivity].
Qed.
Example qm_count_meets : puts (others qm_demo_trace) = [5; 6] /\ flat_map (handed (reported (others qm_demo_trace))) (consumers (others qm_demo_trace)) = [5; 6].
Proof. split; reflexivity. Qed.
