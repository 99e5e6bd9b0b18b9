(** Property theorems for async::queue: C01-C05 (cancellable waits) for async_get, C06, C07, C08.
    Every theorem quantifies over all item types, all schedules [ls] (lists of labels) of any number of operations,
    cancellation events and threads. *)
From Coq Require Import List Arith Bool.
From Verif Require Import Lts M_Wait S_Wait P_Wait M_Queue S_Queue P_Queue.
Import ListNotations.

Notation qrun T eager ls := (run (step (queue_prim T) eager) (c_init (queue_prim T)) ls).

(** ** C01: at most once *)
Theorem C01_queue : forall T eager ls s tr, qrun T eager ls = Running s tr ->
  forall o, notified o tr <= 1 /\ (notified o tr = 1 -> started o tr).
Proof.
  exact (fun T eager ls s tr Hr o => conj (t_once _ _ eager (queue_tlaws T) ls s tr Hr o)
    (fun H => t_started _ _ eager (queue_tlaws T) ls s tr Hr o (eq_ind_r (fun n => n > 0) (le_n 1) H))).
Qed.
Print Assumptions C01_queue.

(** ** C02: never lost *)
(** When the library calls in flight have returned: a cancelled get was notified ... *)
Theorem C02_queue_cancelled : forall T eager ls s tr, qrun T eager ls = Running s tr -> all_returned s ->
  forall o, started o tr -> cancel_requested o tr -> notified o tr = 1.
Proof. exact (fun T eager => t_cancelled _ _ eager (queue_tlaws T)). Qed.
Print Assumptions C02_queue_cancelled.

(** ... and so was a get that some put() took from the head of the wait list. *)
Theorem C02_queue_woken : forall T eager ls1 s1 tr1 x o rest ls2 s2 tr2,
  qrun T eager ls1 = Running s1 tr1 -> q_sinks (c_prim s1) = o :: rest ->
  qrun T eager (ls1 ++ LPrim (QPut x : PL (queue_prim T)) :: ls2) = Running s2 tr2 -> all_returned s2 ->
  notified o tr2 = 1.
Proof. exact q_woken. Qed.
Print Assumptions C02_queue_woken.

(** Everybody else is still pending for a reason: nothing is buffered and no cancellation was requested. *)
Theorem C02_queue_pending : forall T eager ls s tr, qrun T eager ls = Running s tr -> all_returned s ->
  forall o, started o tr -> notified o tr = 0 -> q_buf (c_prim s) = [] /\ ~ cancel_requested o tr.
Proof. exact (fun T eager ls s tr Hr Hret o => q_started_buf T eager ls s tr o Hr Hret). Qed.
Print Assumptions C02_queue_pending.

(** The calls in flight finish after finitely many steps, whatever the schedule ... *)
Theorem C02_queue_finishes : forall T eager ls s tr, qrun T eager ls = Running s tr ->
  exists n, finishes_within eager n s tr.
Proof. exact (fun T eager => t_finishes _ _ eager (queue_tlaws T)). Qed.
Print Assumptions C02_queue_finishes.

(** ... and never block each other: if none of them can take a step, all have returned. *)
Theorem C02_queue_progress : forall T eager ls s tr, qrun T eager ls = Running s tr -> stuck eager s -> all_returned s.
Proof. exact (fun T eager => t_progress _ _ eager (queue_tlaws T)). Qed.
Print Assumptions C02_queue_progress.

(** ** C03: truthful *)
Theorem C03_queue_cancelled : forall T eager ls s tr1 o tr2,
  qrun T eager ls = Running s (tr1 ++ EDone (P := queue_prim T) o None :: tr2) -> cancel_requested o tr1.
Proof. exact q_null_cancelled. Qed.
Print Assumptions C03_queue_cancelled.

Theorem C03_queue_success : forall T eager ls s tr1 o x tr2,
  qrun T eager ls = Running s (tr1 ++ EDone (P := queue_prim T) o (Some x) :: tr2) -> In x (puts tr1).
Proof. exact q_item_put. Qed.
Print Assumptions C03_queue_success.

Theorem C03_queue_default_token : forall T eager ls s tr o a v, qrun T eager ls = Running s tr ->
  In (EStart (P := queue_prim T) o None a) tr -> In (EDone (P := queue_prim T) o v) tr -> v <> None.
Proof. exact q_default_token. Qed.
Print Assumptions C03_queue_default_token.

(** ** C04: no access after completion *)
(** False: a client that destroys the operation in (or right after) set_value can make complete() access freed memory. *)
Theorem C04_queue_refuted : exists ls tr, qrun nat true ls = Failed UseAfterFree tr.
Proof. exact q_uaf. Qed.
Print Assumptions C04_queue_refuted.

(** What does hold: (1) this is the only failure there is, and it needs a cancellation of that very operation ... *)
Theorem C04_queue_partial : forall T ls f tr, qrun T true ls = Failed f tr ->
  f = UseAfterFree /\ exists o, In (EDestroy o) tr /\ notified o tr = 1 /\ cancel_requested o tr.
Proof. exact q_eager_fail. Qed.
Print Assumptions C04_queue_partial.

(** ... and (2) a client that waits for the calls on the operation to return before destroying it is safe. *)
Theorem C04_queue_lazy_partial : forall T ls f tr, qrun T false ls <> Failed f tr.
Proof. exact q_safe_lazy. Qed.
Print Assumptions C04_queue_lazy_partial.

(** ** C05: the event's callback list is empty once its waits are over *)
Theorem C05_queue : forall T eager ls s tr e, qrun T eager ls = Running s tr ->
  (forall o, uses_event o e tr -> notified o tr = 1) -> e_cbs (c_ev s e) = [].
Proof. exact (fun T eager => t_event_clean _ _ eager (queue_tlaws T)). Qed.
Print Assumptions C05_queue.

(** ** C06: FIFO, nothing lost or duplicated *)
(** At every moment the items put are, in order, those handed to the consumers (in the order in which they entered
    the queue), followed by the buffer; [res o] is what get [o] reports or will report. *)
Theorem C06_queue_fifo : forall T eager ls s tr, qrun T eager ls = Running s tr ->
  exists res : nat -> option T,
    (forall o v, In (EDone (P := queue_prim T) o v) tr -> v = res o) /\
    puts tr = flat_map (handed res) (consumers tr) ++ q_buf (c_prim s).
Proof. exact q_fifo. Qed.
Print Assumptions C06_queue_fifo.

(** When the calls in flight have returned, [res] is exactly what was reported. *)
Theorem C06_queue_fifo_quiescent : forall T eager ls s tr, qrun T eager ls = Running s tr -> all_returned s ->
  puts tr = flat_map (handed (reported tr)) (consumers tr) ++ q_buf (c_prim s).
Proof. exact q_fifo_quiescent. Qed.
Print Assumptions C06_queue_fifo_quiescent.

(** ** C07: a get waits only while the queue is empty *)
Theorem C07_queue_exclusive : forall T eager ls s tr, qrun T eager ls = Running s tr ->
  q_buf (c_prim s) = [] \/ q_sinks (c_prim s) = [].
Proof. exact q_exclusive. Qed.
Print Assumptions C07_queue_exclusive.

Theorem C07_queue_asserts : forall T eager ls tr, qrun T eager ls <> Failed AssertFailed tr.
Proof. exact q_no_assert. Qed.
Print Assumptions C07_queue_asserts.

Theorem C07_queue_quiescent : forall T eager ls s tr, qrun T eager ls = Running s tr -> all_returned s ->
  forall o, started o tr -> notified o tr = 1 \/ (q_buf (c_prim s) = [] /\ ~ cancel_requested o tr).
Proof. exact q_pending. Qed.
Print Assumptions C07_queue_quiescent.

(** ** C08: a cancelled get does not swallow an item *)
(** (that a get reporting null consumed nothing is C06: [handed] of None is empty) *)
Theorem C08_queue_null : forall T eager ls s tr1 o tr2,
  qrun T eager ls = Running s (tr1 ++ EDone (P := queue_prim T) o None :: tr2) -> cancel_requested o tr1.
Proof. exact q_null_cancelled. Qed.
Print Assumptions C08_queue_null.

Theorem C08_queue_handed : forall T eager ls1 s1 tr1 x o rest ls2 s2 tr2 v,
  qrun T eager ls1 = Running s1 tr1 -> q_sinks (c_prim s1) = o :: rest ->
  qrun T eager (ls1 ++ LPrim (QPut x : PL (queue_prim T)) :: ls2) = Running s2 tr2 ->
  In (EDone (P := queue_prim T) o v) tr2 -> v = Some x.
Proof. exact q_handed. Qed.
Print Assumptions C08_queue_handed.

(** ** Witnesses: the hypotheses are met by non-trivial runs *)
Notation QP := (queue_prim nat).

(** Gets 0 and 1 wait with the token of event 7.  put(5) takes get 0 while cancel() is called: the cancellation of get 0
    comes too late, get 1 is cancelled.  Then put(6), put(8), maybe_get(), and get 2 with a default token. *)
Definition demo1 : list (label QP) :=
  [LStart (P := QP) 0 (Some 7) tt; LStart (P := QP) 1 (Some 7) tt; LPath 0 PathL; LPath 0 PathL; LPath 1 PathL; LPath 1 PathL].
Definition demo2 : list (label QP) :=
  [LCancel 7; LWakeNext 0; LCanNext 0; LPath 0 PathP; LPath 0 PathC; LPath 0 PathP; LPath 0 PathC; LPath 0 PathC;
   LCanNext 0; LPath 1 PathC; LPath 1 PathC; LPath 1 PathC;
   LPrim (QPut 6 : PL QP); LPrim (QPut 8 : PL QP); LPrim (QPut 9 : PL QP); LPrim (QMaybeGet : PL QP);
   LStart (P := QP) 2 None tt; LPath 2 PathL; LDestroy 0].
Definition demo : list (label QP) := demo1 ++ LPrim (QPut 5 : PL QP) :: demo2.

Example demo_trace : exists s, qrun nat true demo =
  Running s [EStart (P := QP) 0 (Some 7) tt; EStart (P := QP) 1 (Some 7) tt; EPrim (EPut 5 : PE QP); ECancel 7;
             EDone (P := QP) 0 (Some 5); EDone (P := QP) 1 None;
             EPrim (EPut 6 : PE QP); EPrim (EPut 8 : PE QP); EPrim (EPut 9 : PE QP); EPrim (EMaybeGet (Some 6) : PE QP);
             EStart (P := QP) 2 None tt; EDone (P := QP) 2 (Some 8); EDestroy 0]
  /\ all_returned s /\ q_buf (c_prim s) = [9].
Proof.
  witness. split; [|vmrefl].
  apply (t_returned_final _ _ true (queue_tlaws nat) demo); vmrefl.
Qed.

Example demo1_waiting : exists s tr, qrun nat true demo1 = Running s tr /\ q_sinks (c_prim s) = [0; 1].
Proof. witness. vmrefl. Qed.

(** a state in which calls are in flight (so that C02_queue_finishes talks about something) *)
Example demo_in_flight : exists s tr, qrun nat true (demo1 ++ [LPrim (QPut 5 : PL QP); LCancel 7]) = Running s tr /\
  step QP true s (LWakeNext 0) <> Disabled /\ step QP true s (LCanNext 0) <> Disabled.
Proof. witness. split; vm_compute; discriminate. Qed.

(** pending gets at quiescence *)
Example demo_pending : exists s tr, qrun nat true demo1 = Running s tr /\ all_returned s /\ started 1 tr /\ notified 1 tr = 0.
Proof.
  witness. split; [|split; [vm_compute; auto|vmrefl]].
  apply (t_returned_final _ _ true (queue_tlaws nat) demo1); vmrefl.
Qed.
