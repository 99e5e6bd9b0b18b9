(** Property theorems for async::recurring_event: C01-C05 (cancellable waits), C09, C10.
    [U] is the code around the event: the condition of async_wait_if may read any state it shares with the callers of
    raise(); sequenced_event and barrier are two such users. *)
From Coq Require Import List Arith Bool.
From Verif Require Import Lts M_Wait S_Wait P_Wait M_Recurring S_Recurring P_Recurring.
Import ListNotations.

Notation rrun U eager ls := (run (step (recurring_prim U) eager) (c_init (recurring_prim U)) ls).

(** ** C01: at most once *)
Theorem C01_recurring : forall U eager ls s tr, rrun U eager ls = Running s tr ->
  forall o, notified o tr <= 1 /\ (notified o tr = 1 -> started o tr).
Proof.
  exact (fun U eager ls s tr Hr o => conj (t_once _ _ eager (recurring_tlaws U) ls s tr Hr o)
    (fun H => t_started _ _ eager (recurring_tlaws U) ls s tr Hr o (eq_ind_r (fun n => n > 0) (le_n 1) H))).
Qed.
Print Assumptions C01_recurring.

(** ** C02: never lost *)
Theorem C02_recurring_cancelled : forall U eager ls s tr, rrun U eager ls = Running s tr -> all_returned s ->
  forall o, started o tr -> cancel_requested o tr -> notified o tr = 1.
Proof. exact (fun U eager => t_cancelled _ _ eager (recurring_tlaws U)). Qed.
Print Assumptions C02_recurring_cancelled.

(** A raise() after the start of a wait notifies it (whether its condition held or not). *)
Theorem C02_recurring_woken : forall U eager ls s tr, rrun U eager ls = Running s tr -> all_returned s ->
  forall o, event_after is_raise o tr = true -> notified o tr = 1.
Proof. exact (fun U eager ls s tr Hr Hret o => r_woken U eager ls s tr o Hr Hret). Qed.
Print Assumptions C02_recurring_woken.

Theorem C02_recurring_pending : forall U eager ls s tr, rrun U eager ls = Running s tr -> all_returned s ->
  forall o, started o tr -> notified o tr = 1 \/
    (event_after is_raise o tr = false /\ ~ cancel_requested o tr).
Proof.
  exact (fun U eager ls s tr Hr Hret o Hst => match r_pending U eager ls s tr o Hr Hret Hst with
    or_introl H => or_introl H | or_intror (conj _ H) => or_intror H end).
Qed.
Print Assumptions C02_recurring_pending.

Theorem C02_recurring_finishes : forall U eager ls s tr, rrun U eager ls = Running s tr ->
  exists n, finishes_within eager n s tr.
Proof. exact (fun U eager => t_finishes _ _ eager (recurring_tlaws U)). Qed.
Print Assumptions C02_recurring_finishes.

Theorem C02_recurring_progress : forall U eager ls s tr, rrun U eager ls = Running s tr -> stuck eager s -> all_returned s.
Proof. exact (fun U eager => t_progress _ _ eager (recurring_tlaws U)). Qed.
Print Assumptions C02_recurring_progress.

(** ** C10 / C03: truthful results *)
(** 'awaited': the condition held in start() and some raise() took effect between start() and the report. *)
Theorem C10_recurring_awaited : forall eager ls s t1 o tok b t2 t3,
  rrun plain_user eager ls = Running s (t1 ++ EStart (P := recurring) o tok b :: t2 ++ EDone (P := recurring) o Awaited :: t3) ->
  b = true /\ existsb is_raise t2 = true.
Proof. exact plain_awaited. Qed.
Print Assumptions C10_recurring_awaited.

(** 'condition_failed': the condition was false in start(). *)
Theorem C10_recurring_condition : forall eager ls s t1 o tok b t2 t3,
  rrun plain_user eager ls = Running s (t1 ++ EStart (P := recurring) o tok b :: t2 ++ EDone (P := recurring) o CondFailed :: t3) ->
  b = false.
Proof. exact plain_condition. Qed.
Print Assumptions C10_recurring_condition.

(** 'cancelled': the event of this operation was cancelled before. *)
Theorem C10_recurring_cancelled : forall eager ls s t1 o tok b t2 t3,
  rrun plain_user eager ls = Running s (t1 ++ EStart (P := recurring) o tok b :: t2 ++ EDone (P := recurring) o Cancelled :: t3) ->
  b = true /\ cancel_requested o (t1 ++ EStart (P := recurring) o tok b :: t2).
Proof. exact plain_cancelled. Qed.
Print Assumptions C10_recurring_cancelled.

(** Every report belongs to an operation started before (so the three theorems above cover all reports). *)
Theorem C10_recurring_complete : forall U eager ls s t1 o v t2,
  rrun U eager ls = Running s (t1 ++ EDone (P := recurring_prim U) o v :: t2) -> started o t1.
Proof. exact r_done_started. Qed.
Print Assumptions C10_recurring_complete.

(** async_wait_if() without token: the assertion that the result is not 'cancelled' (lines 163-170) cannot fire. *)
Theorem C03_recurring_default_token : forall eager ls s tr o b v, rrun plain_user eager ls = Running s tr ->
  In (EStart (P := recurring) o None b) tr -> In (EDone (P := recurring) o v) tr -> v <> Cancelled.
Proof. exact plain_default_token. Qed.
Print Assumptions C03_recurring_default_token.

Theorem C03_recurring_cancelled : forall eager ls s t1 o t2,
  rrun plain_user eager ls = Running s (t1 ++ EDone (P := recurring) o Cancelled :: t2) -> cancel_requested o t1.
Proof. exact plain_cancelled_requested. Qed.
Print Assumptions C03_recurring_cancelled.

Theorem C03_recurring_success : forall eager ls s t1 o t2,
  rrun plain_user eager ls = Running s (t1 ++ EDone (P := recurring) o Awaited :: t2) -> event_after is_raise o t1 = true.
Proof. exact plain_awaited_raised. Qed.
Print Assumptions C03_recurring_success.

(** ** C04: no access after completion *)
Theorem C04_recurring_refuted : exists ls tr, rrun plain_user true ls = Failed UseAfterFree tr.
Proof. exact r_uaf. Qed.
Print Assumptions C04_recurring_refuted.

Theorem C04_recurring_partial : forall ls f tr, rrun plain_user true ls = Failed f tr ->
  f = UseAfterFree /\ exists o, In (EDestroy o) tr /\ notified o tr = 1 /\ cancel_requested o tr.
Proof. exact plain_eager_fail. Qed.
Print Assumptions C04_recurring_partial.

Theorem C04_recurring_lazy_partial : forall ls f tr, rrun plain_user false ls <> Failed f tr.
Proof. exact plain_safe. Qed.
Print Assumptions C04_recurring_lazy_partial.

(** ** C05 *)
Theorem C05_recurring : forall U eager ls s tr e, rrun U eager ls = Running s tr ->
  (forall o, uses_event o e tr -> notified o tr = 1) -> e_cbs (c_ev s e) = [].
Proof. exact (fun U eager => t_event_clean _ _ eager (recurring_tlaws U)). Qed.
Print Assumptions C05_recurring.

(** ** C09: raise() wakes every waiter that was queued before it *)
Theorem C09_recurring_woken : forall U eager ls s t1 o tok a t2, rrun U eager ls = Running s (t1 ++ EStart (P := recurring_prim U) o tok a :: t2) ->
  all_returned s -> In (EPrim (ERaise : PE (recurring_prim U))) t2 -> notified o (t1 ++ EStart (P := recurring_prim U) o tok a :: t2) = 1.
Proof. exact r_woken_split. Qed.
Print Assumptions C09_recurring_woken.

(** raise() is always possible, in one step (never blocks) and its assertion holds. *)
Theorem C09_recurring_raise : forall eager ls s tr, rrun plain_user eager ls = Running s tr ->
  exists s', step recurring eager s (LPrim (RRaise : PL recurring)) = Next s' [EPrim (ERaise : PE recurring)].
Proof. exact (fun eager ls s tr Hr => r_raise_enabled plain_user eager ls s tr tt Hr eq_refl). Qed.
Print Assumptions C09_recurring_raise.

Theorem C09_recurring_asserts : forall eager ls tr, rrun plain_user eager ls <> Failed AssertFailed tr.
Proof. exact plain_no_assert. Qed.
Print Assumptions C09_recurring_asserts.

(** ** Witnesses *)
Notation RP := recurring.

(** Operations 0 and 1 wait with the token of event 3, operation 2 has a false condition, operation 3 has no token.
    raise() takes 0, 1 and 3 while cancel() is called; operation 4 starts after that and is cancelled at once. *)
Definition rdemo : list (label RP) :=
  [LStart (P := RP) 0 (Some 3) true; LPath 0 PathL; LPath 0 PathL; LStart (P := RP) 1 (Some 3) true; LPath 1 PathL; LPath 1 PathL;
   LStart (P := RP) 2 None false; LPath 2 PathL; LStart (P := RP) 3 None true; LPath 3 PathL; LPath 3 PathL;
   LPrim (RRaise : PL RP); LCancel 3; LWakeNext 0; LCanNext 0; LPath 0 PathP; LPath 0 PathC; LPath 0 PathP; LPath 0 PathC;
   LPath 0 PathC; LWakeNext 0; LPath 1 PathP; LPath 1 PathP; LCanNext 0; LPath 1 PathC; LPath 1 PathC; LPath 1 PathC;
   LWakeNext 0; LPath 3 PathP; LPath 3 PathP;
   LStart (P := RP) 4 (Some 3) true; LPath 4 PathL; LPath 4 PathL; LPath 4 PathL; LPath 4 PathL].

Example rdemo_trace : exists s, rrun plain_user true rdemo =
  Running s [EStart (P := RP) 0 (Some 3) true; EStart (P := RP) 1 (Some 3) true; EStart (P := RP) 2 None false;
             EDone (P := RP) 2 CondFailed; EStart (P := RP) 3 None true; EPrim (ERaise : PE RP); ECancel 3;
             EDone (P := RP) 0 Awaited; EDone (P := RP) 1 Awaited; EDone (P := RP) 3 Awaited;
             EStart (P := RP) 4 (Some 3) true; EDone (P := RP) 4 Cancelled] /\ all_returned s.
Proof.
  witness.
  apply (t_returned_final _ _ true (recurring_tlaws plain_user) rdemo); vmrefl.
Qed.

(** a wait that is pending at quiescence *)
Example rdemo_pending : exists s tr, rrun plain_user true [LStart (P := RP) 0 (Some 3) true; LPath 0 PathL; LPath 0 PathL] = Running s tr /\
  all_returned s /\ started 0 tr /\ notified 0 tr = 0.
Proof.
  witness. split; [|split; [vm_compute; auto|vmrefl]].
  apply (t_returned_final _ _ true (recurring_tlaws plain_user) [LStart (P := RP) 0 (Some 3) true; LPath 0 PathL; LPath 0 PathL]); vmrefl.
Qed.
