(** Properties of suspend_indefinitely (C38) and with_cancel_cb (C39). *)
From Coq Require Import List Arith Bool.
From Verif Require Import Lts M_Suspend S_Suspend P_Suspend M_WithCancel S_WithCancel P_WithCancel.
Import ListNotations.

(** ** suspend_indefinitely, for every list of tokens *)
(** C38: no assertion fails, and the operation is not accessed after its receiver was notified (in the model, it is destroyed then). *)
Theorem C38_suspend_safe : forall toks ls f tr, run (u_step toks) (u_start toks) ls <> Failed f tr.
Proof. exact u_safe. Qed.
Print Assumptions C38_suspend_safe.

(** C38: the receiver is notified at most once. *)
Theorem C38_suspend_once : forall toks ls s tr, run (u_step toks) (u_start toks) ls = Running s tr -> u_dones tr <= 1.
Proof. exact u_once. Qed.
Print Assumptions C38_suspend_once.

(** C38: it is notified only after start() and after cancel() of the event of some token. *)
Theorem C38_suspend_cause : forall toks ls s t1 t2, toks <> [] -> run (u_step toks) (u_start toks) ls = Running s (t1 ++ EDone :: t2) ->
  In EStart t1 /\ exists e, In (Some e) toks /\ In (ECancel e) t1.
Proof. exact u_after. Qed.
Print Assumptions C38_suspend_cause.

(** C38: once the event of some token was cancelled and no call is in flight, it was notified. *)
Theorem C38_suspend_complete : forall toks ls s tr e, run (u_step toks) (u_start toks) ls = Running s tr -> u_quiet s ->
  In EStart tr -> In (Some e) toks -> In (ECancel e) tr -> In EDone tr.
Proof. exact u_complete. Qed.
Print Assumptions C38_suspend_complete.

(** C38: calls in flight never get stuck, and they return after finitely many steps. *)
Theorem C38_suspend_progress : forall toks ls s tr, run (u_step toks) (u_start toks) ls = Running s tr ->
  (forall w, u_step toks s (LStep w) = Disabled) -> u_quiet s.
Proof. exact u_progress. Qed.
Print Assumptions C38_suspend_progress.
Theorem C38_suspend_finishes : forall toks ls s tr, run (u_step toks) (u_start toks) ls = Running s tr ->
  exists n, forall ls' s' tr', Forall u_internal ls' -> run_from (u_step toks) s tr ls' = Running s' tr' -> length ls' <= n.
Proof. exact u_finishes. Qed.
Print Assumptions C38_suspend_finishes.

(** Four tokens, one of them empty and two of the same event; event 1 is cancelled while start() is running, then event 0, both during start() *)
Definition sdemo : list ulabel :=
  let m := LStep None in
  let k0 := LStep (Some 0) in
  let k1 := LStep (Some 1) in
  [LStart; m; m; LCancel 1; m; k0; m; m; LCancel 0; m; k1; m; k1; m; k1; m; m; m; m; m; m; m; m; k1; LCancel 0; LCancel 1; LStep (Some 2); LStep (Some 3)].
Example suspend_demo : exists s, run (u_step [Some 0; None; Some 1; Some 0]) (u_start [Some 0; None; Some 1; Some 0]) sdemo = Running s [EStart; ECancel 1; ECancel 0; EDone; ECancel 0; ECancel 1] /\
  u_quiet s.
Proof. witness. split; [right; vmrefl|]. vm_compute. intros a H. repeat (destruct H as [<-|H]; [reflexivity|]). contradiction. Qed.

(** ** with_cancel_cb, with an empty token ([tok = false]) and with a token *)
(** C39: no assertion fails, and the operation is not accessed after its receiver was notified. *)
Theorem C39_with_cancel_cb_safe : forall tok ls f tr, run (w_step tok) w_init ls <> Failed f tr.
Proof. exact w_safe. Qed.
Print Assumptions C39_with_cancel_cb_safe.

(** C39: the receiver is notified at most once, the callback is called at most once, the wrapped operation is started at most once. *)
Theorem C39_with_cancel_cb_once : forall tok ls s tr, run (w_step tok) w_init ls = Running s tr -> w_dones tr <= 1 /\ w_cbs tr <= 1 /\ w_starts tr <= 1.
Proof. exact w_once. Qed.
Print Assumptions C39_with_cancel_cb_once.

(** C39: when the receiver is notified with [v], the wrapped operation completed with [v]; each call of the callback has returned;
    afterwards nothing happens any more, except for further calls of cancel(). *)
Theorem C39_with_cancel_cb_value : forall tok ls s t1 v t2, run (w_step tok) w_init ls = Running s (t1 ++ WEDone v :: t2) ->
  In (WEInner v) t1 /\ w_cbs t1 = w_cbrets t1 /\ forall e, In e t2 -> e = WECancel.
Proof. exact w_final. Qed.
Print Assumptions C39_with_cancel_cb_value.

(** C39: the callback is called only after cancel(). *)
Theorem C39_with_cancel_cb_cause : forall tok ls s t1 t2, run (w_step tok) w_init ls = Running s (t1 ++ WECb :: t2) -> tok = true /\ In WECancel t1.
Proof. exact w_cause. Qed.
Print Assumptions C39_with_cancel_cb_cause.

(** C39: once no call is in flight, the wrapped operation was started if start() was called, and the receiver was notified if the
    wrapped operation completed. *)
Theorem C39_with_cancel_cb_complete : forall tok ls s tr, run (w_step tok) w_init ls = Running s tr -> w_quiet s ->
  (In WEStart tr -> In WEInnerStart tr) /\ forall v, In (WEInner v) tr -> In (WEDone v) tr.
Proof. exact w_complete. Qed.
Print Assumptions C39_with_cancel_cb_complete.

(** C39: if cancel() is called between start() returning and the completion of the wrapped operation, then the callback is called. *)
Theorem C39_with_cancel_cb_called : forall ls s tr, run (w_step true) w_init ls = Running s tr -> w_quiet s ->
  In WECancel tr -> In WEStart tr -> (forall v, ~ In (WEInner v) tr) -> w_cbs tr = 1.
Proof. intros ls s tr H Hq. exact (w_called true ls s tr H Hq eq_refl). Qed.
Print Assumptions C39_with_cancel_cb_called.

(** C39: calls in flight never get stuck, and they return after finitely many steps. *)
Theorem C39_with_cancel_cb_progress : forall tok s, (forall l, w_internal l -> w_step tok s l = Disabled) -> w_quiet s.
Proof. exact w_progress. Qed.
Print Assumptions C39_with_cancel_cb_progress.
Theorem C39_with_cancel_cb_finishes : forall tok s, exists n, forall ls tr s' tr', Forall w_internal ls -> run_from (w_step tok) s tr ls = Running s' tr' -> length ls <= n.
Proof. exact w_finishes. Qed.
Print Assumptions C39_with_cancel_cb_finishes.

(** cancel() while the wrapped operation is running; it completes while the callback is running *)
Example with_cancel_cb_demo : exists s, run (w_step true) w_init
    [WLStart; WLStep 0; WLStep 0; WLCancel; WLStep 1; WLInner 7; WLStep 2; WLStep 2; WLCbRet 1; WLStep 1; WLStep 1; WLCancel] =
  Running s [WEStart; WEInnerStart; WECancel; WECb; WEInner 7; WECbRet; WEDone 7; WECancel] /\ w_quiet s.
Proof. witness. vm_compute. intros a H. repeat (destruct H as [<-|H]; [reflexivity|]). contradiction. Qed.
(** cancel() before start(): the callback runs inside of start() *)
Example with_cancel_cb_demo_early : exists s, run (w_step true) w_init
    [WLCancel; WLStart; WLStep 0; WLStep 0; WLCbRet 0; WLStep 0; WLStep 0] =
  Running s [WECancel; WEStart; WECb; WECbRet; WEInnerStart] /\ w_quiet s.
Proof. witness. vm_compute. intros a H. repeat (destruct H as [<-|H]; [reflexivity|]). contradiction. Qed.
(** an empty token: the callback does not run *)
Example with_cancel_cb_demo_empty : exists s, run (w_step false) w_init
    [WLStart; WLStep 0; WLStep 0; WLCancel; WLInner 3; WLStep 1; WLStep 1] =
  Running s [WEStart; WEInnerStart; WECancel; WEInner 3; WEDone 3] /\ w_quiet s.
Proof. witness. vm_compute. intros a H. repeat (destruct H as [<-|H]; [reflexivity|]). contradiction. Qed.
