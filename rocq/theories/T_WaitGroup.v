(** Property theorems for async::wait_group, wait_in_group and oneshot_event: C01-C05 (cancellable waits), C16-C21.
    [V] is the type of the values of wrapped operations, [n0] the count given to the constructor. *)
From Coq Require Import List Arith Bool.
From Verif Require Import Lts M_Wait S_Wait P_Wait M_WaitGroup S_WaitGroup P_WaitGroup.
Import ListNotations.

Notation wrun V n0 eager ls := (run (step (wait_group V n0) eager) (c_init (wait_group V n0)) ls).

(** ** C01: at most once *)
Theorem C01_wait_group : forall V n0 eager ls s tr, wrun V n0 eager ls = Running s tr ->
  forall o, notified o tr <= 1 /\ (notified o tr = 1 -> started o tr).
Proof.
  exact (fun V n0 eager ls s tr Hr o => conj (t_once _ _ eager (wait_group_tlaws V n0) ls s tr Hr o)
    (fun H => t_started _ _ eager (wait_group_tlaws V n0) ls s tr Hr o (eq_ind_r (fun n => n > 0) (le_n 1) H))).
Qed.
Print Assumptions C01_wait_group.

(** ** C02: never lost *)
Theorem C02_wait_group_cancelled : forall V n0 eager ls s tr, wrun V n0 eager ls = Running s tr -> all_returned s ->
  forall o, started o tr -> cancel_requested o tr -> notified o tr = 1.
Proof. exact (fun V n0 eager => t_cancelled _ _ eager (wait_group_tlaws V n0)). Qed.
Print Assumptions C02_wait_group_cancelled.

(** If at some point of the execution (tr1) done() has been called for every unit and those calls are past the decrement,
    every wait started before is notified, also if the group is used again afterwards. *)
Theorem C02_wait_group_woken : forall V n0 eager ls1 s1 tr1 ls2 s2 tr2 o,
  wrun V n0 eager ls1 = Running s1 tr1 -> done_returned s1 -> dones tr1 >= units tr1 ->
  wrun V n0 eager (ls1 ++ ls2) = Running s2 tr2 -> all_returned s2 -> started o tr1 -> notified o tr2 = 1.
Proof. exact wg_woken. Qed.
Print Assumptions C02_wait_group_woken.

Theorem C02_wait_group_pending : forall V n0 eager ls s tr o, wrun V n0 eager ls = Running s tr -> all_returned s -> done_returned s ->
  started o tr -> notified o tr = 1 \/ (dones tr < units tr /\ ~ cancel_requested o tr).
Proof. exact wg_pending_units. Qed.
Print Assumptions C02_wait_group_pending.

Theorem C02_wait_group_finishes : forall V n0 eager ls s tr, wrun V n0 eager ls = Running s tr ->
  exists n, finishes_within eager n s tr.
Proof. exact (fun V n0 eager => t_finishes _ _ eager (wait_group_tlaws V n0)). Qed.
Print Assumptions C02_wait_group_finishes.

Theorem C02_wait_group_progress : forall V n0 eager ls s tr, wrun V n0 eager ls = Running s tr -> stuck eager s -> all_returned s.
Proof. exact (fun V n0 eager => t_progress _ _ eager (wait_group_tlaws V n0)). Qed.
Print Assumptions C02_wait_group_progress.

(** ** C03: truthful results *)
(** wait() without token: the assertion that the result is true (lines 164-168) cannot fail. *)
Theorem C03_wait_group_default_token : forall V n0 eager ls s tr o a v, wrun V n0 eager ls = Running s tr ->
  In (EStart (P := wait_group V n0) o None a) tr -> In (EDone (P := wait_group V n0) o v) tr -> v = true.
Proof. exact wg_default_token. Qed.
Print Assumptions C03_wait_group_default_token.

Theorem C03_wait_group_cancelled : forall V n0 eager ls s t1 o t2,
  wrun V n0 eager ls = Running s (t1 ++ EDone (P := wait_group V n0) o false :: t2) -> cancel_requested o t1.
Proof. exact wg_false. Qed.
Print Assumptions C03_wait_group_cancelled.

Theorem C03_wait_group_success : forall V n0 eager ls s t1 o tok a t2 t3,
  wrun V n0 eager ls = Running s (t1 ++ EStart (P := wait_group V n0) o tok a :: t2 ++ EDone (P := wait_group V n0) o true :: t3) ->
  exists ta tb, t2 = ta ++ tb /\
    dones (t1 ++ EStart (P := wait_group V n0) o tok a :: ta) >= units (t1 ++ EStart (P := wait_group V n0) o tok a :: ta).
Proof. exact wg_true. Qed.
Print Assumptions C03_wait_group_success.

(** ** C04: no access after completion *)
Theorem C04_wait_group_refuted : exists ls tr, wrun nat 1 true ls = Failed UseAfterFree tr /\ wg_rule tr /\ reuse_rule tr.
Proof. exact wg_uaf. Qed.
Print Assumptions C04_wait_group_refuted.

(** For clients obeying the rules of C17 and C18 this is the only failure, and it needs the early destruction of an
    operation that was notified and cancelled at the same time. *)
Theorem C04_wait_group_partial : forall V n0 eager ls f tr, wrun V n0 eager ls = Failed f tr -> wg_rule tr -> reuse_rule tr ->
  eager = true /\ f = UseAfterFree /\ exists o, In (EDestroy o) tr /\ notified o tr = 1 /\ cancel_requested o tr.
Proof. exact wg_reuse_fail. Qed.
Print Assumptions C04_wait_group_partial.

Theorem C04_wait_group_lazy_partial : forall V n0 ls f tr, wrun V n0 false ls = Failed f tr -> wg_rule tr -> ~ reuse_rule tr.
Proof. exact wg_safe. Qed.
Print Assumptions C04_wait_group_lazy_partial.

(** ** C05 *)
Theorem C05_wait_group : forall V n0 eager ls s tr e, wrun V n0 eager ls = Running s tr ->
  (forall o, uses_event o e tr -> notified o tr = 1) -> e_cbs (c_ev s e) = [].
Proof. exact (fun V n0 eager => t_event_clean _ _ eager (wait_group_tlaws V n0)). Qed.
Print Assumptions C05_wait_group.

(** ** C16: released only at zero *)
Theorem C16_wait_group : forall V n0 eager ls s t1 o tok a t2 t3,
  wrun V n0 eager ls = Running s (t1 ++ EStart (P := wait_group V n0) o tok a :: t2 ++ EDone (P := wait_group V n0) o true :: t3) ->
  wg_rule (t1 ++ EStart (P := wait_group V n0) o tok a :: t2 ++ EDone (P := wait_group V n0) o true :: t3) ->
  exists ta tb, t2 = ta ++ tb /\
    dones (t1 ++ EStart (P := wait_group V n0) o tok a :: ta) = units (t1 ++ EStart (P := wait_group V n0) o tok a :: ta).
Proof. exact wg_true_rule. Qed.
Print Assumptions C16_wait_group.

(** ** C17: done() *)
Theorem C17_wait_group_asserts : forall V n0 eager ls f tr, wrun V n0 eager ls = Failed f tr -> wg_rule tr ->
  f <> AssertFailed /\ f <> CounterUnderflow.
Proof. exact wg_no_trip. Qed.
Print Assumptions C17_wait_group_asserts.

Theorem C17_wait_group_released : forall V n0 eager ls s tr, wrun V n0 eager ls = Running s tr -> all_returned s -> done_returned s ->
  dones tr = units tr -> forall o, started o tr -> notified o tr = 1.
Proof. exact wg_released. Qed.
Print Assumptions C17_wait_group_released.

(** A call of done() that is past the decrement wakes the waiters in the loop of M_Wait; a call before it can always make
    a step under the rule. *)
Theorem C17_wait_group_progress : forall V n0 eager ls s tr k w d, wrun V n0 eager ls = Running s tr -> wg_rule tr ->
  nth_error (w_dn (c_prim s)) k = Some (w, d) -> d <> DEnd ->
  exists s' es, step (wait_group V n0) eager s (LPrim (WStep k : PL (wait_group V n0))) = Next s' es.
Proof. exact wg_done_enabled. Qed.
Print Assumptions C17_wait_group_progress.

(** ** C18: re-use of a group *)
(** Refuted: the counter drops to zero and done() takes the waiter off the list; before it is notified somebody calls
    add(1); a concurrent cancel() then finds ctr_ != 0 and erases the node, which is in no list. *)
Theorem C18_wait_group_refuted : exists ls tr, wrun nat 1 false ls = Failed BadUnlink tr /\ wg_rule tr.
Proof. exact wg_reuse_bad. Qed.
Print Assumptions C18_wait_group_refuted.

(** What holds: if add() is only called on a group without units once all of its waits are over, nothing fails (apart from
    C04's early destruction). *)
Theorem C18_wait_group_partial : forall V n0 eager ls f tr, wrun V n0 eager ls = Failed f tr -> wg_rule tr -> reuse_rule tr ->
  eager = true /\ f = UseAfterFree.
Proof. exact (fun V n0 eager ls f tr Hr H1 H2 => match wg_reuse_fail V n0 eager ls f tr Hr H1 H2 with conj a (conj b _) => conj a b end). Qed.
Print Assumptions C18_wait_group_partial.

(** ** C19: wait_in_group *)
(** In this order, each at most once, and with the value unchanged. *)
Theorem C19_wait_in_group_events : forall V n0 eager ls s tr i, wrun V n0 eager ls = Running s tr ->
  in_events i tr = [] \/ in_events i tr = [EInStart i] \/
  exists v, in_events i tr = [EInStart i; EInDone i v] \/ in_events i tr = [EInStart i; EInDone i v; EInOut i v].
Proof. exact wg_in_events. Qed.
Print Assumptions C19_wait_in_group_events.

(** The unit is gone when the receiver is notified. *)
Theorem C19_wait_in_group_before : forall V n0 eager ls s tr, wrun V n0 eager ls = Running s tr ->
  w_ctr (c_prim s) + total outs tr <= units tr.
Proof. exact wg_in_before. Qed.
Print Assumptions C19_wait_in_group_before.

(** When the calls in flight have returned, the counter is the number of operations in flight, plus the units of others. *)
Theorem C19_wait_in_group_count : forall V n0 eager ls s tr, wrun V n0 eager ls = Running s tr -> done_returned s ->
  w_ctr (c_prim s) + total own_calls tr + total outs tr = n0 + total own_adds tr + total in_starts tr.
Proof. exact wg_in_count. Qed.
Print Assumptions C19_wait_in_group_count.

(** If the others obey the rule, a wait that reports true saw a moment at which no wrapped operation was running. *)
Theorem C19_wait_in_group_waits : forall V n0 eager ls s t1 o tok a t2 t3,
  wrun V n0 eager ls = Running s (t1 ++ EStart (P := wait_group V n0) o tok a :: t2 ++ EDone (P := wait_group V n0) o true :: t3) ->
  (forall u w, t1 ++ EStart (P := wait_group V n0) o tok a :: t2 ++ EDone (P := wait_group V n0) o true :: t3 = u ++ w ->
    total own_calls u <= n0 + total own_adds u) ->
  exists ta tb, t2 = ta ++ tb /\
    total in_dones (t1 ++ EStart (P := wait_group V n0) o tok a :: ta) = total in_starts (t1 ++ EStart (P := wait_group V n0) o tok a :: ta).
Proof. exact wg_in_wait. Qed.
Print Assumptions C19_wait_in_group_waits.

(** ** C20: oneshot_event *)
Notation orun eager ls := (run (step oneshot eager) (c_init oneshot) ls).

Theorem C20_oneshot_before : forall eager ls s t1 o t2, orun eager ls = Running s (t1 ++ EDone (P := oneshot) o true :: t2) ->
  In (EPrim (EDoneCall : PE oneshot)) t1.
Proof. exact oneshot_before. Qed.
Print Assumptions C20_oneshot_before.

Theorem C20_oneshot_after : forall eager ls s tr o, orun eager ls = Running s tr -> total adds tr = 0 ->
  In (EPrim (EDoneCall : PE oneshot)) tr -> all_returned s -> done_returned s -> started o tr -> notified o tr = 1.
Proof. exact oneshot_after. Qed.
Print Assumptions C20_oneshot_after.

(** so it reports true unless it was cancelled before *)
Theorem C20_oneshot_false : forall eager ls s t1 o t2, orun eager ls = Running s (t1 ++ EDone (P := oneshot) o false :: t2) ->
  cancel_requested o t1.
Proof. exact (wg_false Empty_set 1). Qed.
Print Assumptions C20_oneshot_false.

(** An event raised once does not fail, apart from C04's early destruction. *)
Theorem C20_oneshot_safe : forall eager ls f tr, orun eager ls = Failed f tr -> total adds tr = 0 -> dones tr <= 1 ->
  eager = true /\ f = UseAfterFree /\ exists o, In (EDestroy o) tr /\ notified o tr = 1 /\ cancel_requested o tr.
Proof. exact oneshot_safe. Qed.
Print Assumptions C20_oneshot_safe.

(** ** C21: raising again *)
(** Refuted: the second raise() trips the assertion of done(). *)
Theorem C21_oneshot_refuted : exists ls tr, orun false ls = Failed AssertFailed tr /\
  tr = [EPrim (EDoneCall : PE oneshot); EPrim (EDoneCall : PE oneshot)].
Proof. exact oneshot_twice. Qed.
Print Assumptions C21_oneshot_refuted.

(** It is not only this schedule: a second call of raise() never returns. *)
Theorem C21_oneshot_partial : forall eager ls s tr, orun eager ls = Running s tr -> total adds tr = 0 -> done_returned s -> dones tr <= 1.
Proof. exact oneshot_again. Qed.
Print Assumptions C21_oneshot_partial.

(** ** Witnesses *)
Notation WP := (wait_group nat 1).

(** A group constructed with 1: add(1), operation 7 is wrapped, three waits; the wait 1 is cancelled; all units are returned, two
    of them by concurrent calls (the exchange of the first fails once), a wait comes late; then the group is used again. *)
Definition wdemo : list (label WP) :=
  [LStart (P := WP) 0 (Some 3) tt; LPath 0 PathL; LPath 0 PathL; LPrim (WAdd 1 : PL WP); LPrim (WInStart 7 : PL WP);
   LStart (P := WP) 1 (Some 4) tt; LPath 1 PathL; LPath 1 PathL;
   LCancel 4; LCanNext 0; LPath 1 PathC; LPath 1 PathC; LPath 1 PathC;
   LPrim (WDone : PL WP); LPrim (WStep 0 : PL WP); LPrim (WInDone 7 9 : PL WP); LPrim (WStep 1 : PL WP); LPrim (WStep 0 : PL WP);
   LPrim (WStep 1 : PL WP); LPrim (WStep 1 : PL WP); LPrim (WStep 1 : PL WP);
   LPrim (WDone : PL WP); LPrim (WStep 2 : PL WP); LPrim (WStep 2 : PL WP); LWakeNext 12; LPath 0 PathP; LPath 0 PathP; LPath 0 PathP;
   LStart (P := WP) 2 None tt; LPath 2 PathL; LPrim (WAdd 2 : PL WP); LStart (P := WP) 3 None tt; LPath 3 PathL; LPath 3 PathL].

Example wdemo_trace : exists s, wrun nat 1 true wdemo =
  Running s [EStart (P := WP) 0 (Some 3) tt; EPrim (EAdd 1 : PE WP); EPrim (EInStart 7 : PE WP); EStart (P := WP) 1 (Some 4) tt;
             ECancel 4; EDone (P := WP) 1 false; EPrim (EDoneCall : PE WP); EPrim (EInDone 7 9 : PE WP); EPrim (EInOut 7 9 : PE WP);
             EPrim (EDoneCall : PE WP); EDone (P := WP) 0 true; EStart (P := WP) 2 None tt; EDone (P := WP) 2 true;
             EPrim (EAdd 2 : PE WP); EStart (P := WP) 3 None tt] /\ all_returned s.
Proof.
  witness.
  apply (t_returned_final _ _ true (wait_group_tlaws nat 1) wdemo); vmrefl.
Qed.
