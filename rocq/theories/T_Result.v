(** C46: result<T>. *)
From Coq Require Import List Arith Bool.
From Verif Require Import Lts M_Result S_Result P_Result.
Import ListNotations.

(** The receiver is notified at most once, with the value that the coroutine returned; the coroutine returns once. *)
Theorem C46_result_once ls s tr :
  run r_step r_init ls = Running s tr -> r_rule tr ->
  r_dones tr = [] \/ exists v, r_dones tr = [v] /\ r_rets tr = [v].
Proof. exact (result_once ls s tr). Qed.
Print Assumptions C46_result_once.

(** The notification comes after the coroutine returned. *)
Theorem C46_result_order ls s tr :
  run r_step r_init ls = Running s tr -> r_rule tr ->
  forall t1 t2 v, tr = t1 ++ REDone v :: t2 -> In (REReturn v) t1.
Proof. exact (result_order ls s tr). Qed.
Print Assumptions C46_result_order.

(** Once the coroutine returned and no thread is inside of the library, the receiver has been notified. *)
Theorem C46_result_complete ls s tr :
  run r_step r_init ls = Running s tr -> r_rule tr ->
  forall v, r_quiet s -> In (REReturn v) tr -> r_dones tr = [v].
Proof. exact (result_complete ls s tr). Qed.
Print Assumptions C46_result_complete.

(** The library takes a bounded number of steps between two steps of the coroutine. *)
Theorem C46_result_finishes s ls tr s' tr' :
  Forall r_internal ls -> run_from r_step s tr ls = Running s' tr' -> length ls <= 7.
Proof. exact (result_finishes s ls tr s' tr'). Qed.
Print Assumptions C46_result_finishes.

(** A started coroutine that has not returned runs or can be resumed. *)
Theorem C46_result_runs ls s tr :
  run r_step r_init ls = Running s tr -> r_rule tr ->
  In REStart tr -> r_rets tr = [] ->
  (exists s', r_step s RLResume = Next s' [REResume]) \/ (exists s', r_step s RLSuspend = Next s' [RESuspend]).
Proof. exact (result_runs ls s tr). Qed.
Print Assumptions C46_result_runs.

(** Nothing touches the operation or the coroutine after the notification: the receiver may destroy both at once. *)
Theorem C46_result_safe ls f tr : run r_step r_init ls = Failed f tr -> ~ r_rule tr.
Proof. exact (result_safe ls f tr). Qed.
Print Assumptions C46_result_safe.

(** The coroutine finishes inside of start(). *)
Example C46_inline :
  exists s, run r_step r_init [RLStart; RLReturn 7; RLFinal; RLExch; RLNotifyInline; RLDestroy] =
            Running s [REStart; REReturn 7; REDone 7; REDestroy] /\ r_alive s = false.
Proof. witness. vmrefl. Qed.
(** Another thread finishes the coroutine before start() reached its exchange: start() notifies. *)
Example C46_overtaken :
  exists s, run r_step r_init [RLStart; RLSuspend; RLResume; RLReturn 7; RLFinal; RLExch; RLNotifyInline; RLDestroy] =
            Running s [REStart; RESuspend; REResume; REReturn 7; REDone 7; REDestroy] /\ r_alive s = false.
Proof. witness. vmrefl. Qed.
(** Another thread finishes the coroutine after start() returned. *)
Example C46_later :
  exists s, run r_step r_init [RLStart; RLSuspend; RLResume; RLSuspend; RLExch; RLResume; RLReturn 7; RLFinal; RLNotify; RLDestroy] =
            Running s [REStart; RESuspend; REResume; RESuspend; REResume; REReturn 7; REDone 7; REDestroy] /\ r_alive s = false /\ r_quiet s.
Proof. witness. split; [vmrefl|]. intros [] H; try destruct H; vmrefl. Qed.
(** The rule is needed: an operation that is destroyed while the coroutine is suspended. *)
Example C46_rule_needed :
  exists tr, run r_step r_init [RLStart; RLSuspend; RLDestroy; RLExch] = Failed UseAfterFree tr /\ tr = [REStart; RESuspend; REDestroy].
Proof. witness. vmrefl. Qed.
