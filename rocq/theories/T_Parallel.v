(** Properties of when_all (C40) and race_and_cancel (C41, C42). *)
From Coq Require Import List Arith Bool Lia.
From Verif Require Import Lts M_WhenAll S_WhenAll P_WhenAll M_Race S_Race P_Race.
Import ListNotations.

(** ** when_all *)
(** C40: the receiver is notified at most once.  With assertions ([dbg = true]) this holds without rules for the client, until an assertion fails. *)
Theorem C40_when_all_once_partial : forall n dbg, 0 < n -> forall ls s tr, run (a_step n dbg) (a_init n) ls = Running s tr ->
  dbg = true \/ a_rule n tr -> a_dones tr <= 1.
Proof. exact a_once. Qed.
Print Assumptions C40_when_all_once_partial.

(** C40: it is notified only after all senders completed. *)
Theorem C40_when_all_after_partial : forall n dbg, 0 < n -> forall ls s t1 t2, run (a_step n dbg) (a_init n) ls = Running s (t1 ++ AEDone :: t2) ->
  dbg = true \/ a_rule n (t1 ++ AEDone :: t2) -> forall i, i < n -> In (AEComp i) t1.
Proof. exact a_after. Qed.
Print Assumptions C40_when_all_after_partial.

(** C40: once all senders completed and no call is in flight, it was notified. *)
Theorem C40_when_all_complete_partial : forall n dbg, 0 < n -> forall ls s tr, run (a_step n dbg) (a_init n) ls = Running s tr ->
  dbg = true \/ a_rule n tr -> a_quiet s -> (forall i, i < n -> In (AEComp i) tr) -> In AEDone tr.
Proof. exact a_complete. Qed.
Print Assumptions C40_when_all_complete_partial.

(** C40: start() starts each operation once, in order. *)
Theorem C40_when_all_started_partial : forall n dbg, 0 < n -> forall ls s tr, run (a_step n dbg) (a_init n) ls = Running s tr ->
  dbg = true \/ a_rule n tr -> NoDup (a_children tr) /\ (a_quiet s -> In AEStart tr -> a_children tr = seq 0 n).
Proof. exact a_started. Qed.
Print Assumptions C40_when_all_started_partial.

(** C40: if the operation is destroyed only after the notification and at least one sender completes after start() has returned, then no
    assertion fails and the operation is not accessed after its destruction. *)
Theorem C40_when_all_safe_partial : forall n dbg, 0 < n -> forall ls f tr, run (a_step n dbg) (a_init n) ls = Failed f tr -> ~ a_rule n tr.
Proof. exact a_safe. Qed.
Print Assumptions C40_when_all_safe_partial.

(** C40: calls in flight never get stuck, and they return after finitely many steps. *)
Theorem C40_when_all_progress : forall n dbg s, (forall l, a_internal l -> a_step n dbg s l = Disabled) -> a_quiet s.
Proof. exact a_progress. Qed.
Print Assumptions C40_when_all_progress.
Theorem C40_when_all_finishes : forall n dbg, 0 < n -> forall s, exists m, forall ls tr s' tr', Forall a_internal ls -> run_from (a_step n dbg) s tr ls = Running s' tr' -> length ls <= m.
Proof. exact a_finishes. Qed.
Print Assumptions C40_when_all_finishes.

(** C40 is false if all senders complete before start() has returned: an assertion fails; *)
Theorem C40_when_all_inline_refuted : exists n ls tr, run (a_step n true) (a_init n) ls = Failed AssertFailed tr /\ tr = [AEStart; AEChild 0; AEComp 0; AEChild 1; AEComp 1; AEDone].
Proof. exists 2, [ALStart; ALStep; ALComp 0; ALStep; ALComp 1; ALNotify; ALStep]. witness. vmrefl. Qed.
Print Assumptions C40_when_all_inline_refuted.
(** without assertions, the receiver is notified twice; *)
Theorem C40_when_all_twice_refuted : exists n ls s tr, run (a_step n false) (a_init n) ls = Running s tr /\ tr = [AEStart; AEChild 0; AEComp 0; AEChild 1; AEComp 1; AEDone; AEDone; AERet].
Proof. exists 2, [ALStart; ALStep; ALComp 0; ALStep; ALComp 1; ALNotify; ALStep; ALStep]. witness. vmrefl. Qed.
Print Assumptions C40_when_all_twice_refuted.
(** and if the receiver destroys the operation when it is notified, start() accesses it afterwards. *)
Theorem C40_when_all_use_after_free_refuted : exists n ls tr, run (a_step n true) (a_init n) ls = Failed UseAfterFree tr /\ tr = [AEStart; AEChild 0; AEChild 1; AEComp 1; AEComp 0; AEDone; AEDestroy].
Proof. exists 2, [ALStart; ALStep; ALStep; ALComp 1; ALComp 0; ALNotify; ALDestroy; ALStep]. witness. vmrefl. Qed.
Print Assumptions C40_when_all_use_after_free_refuted.

(** Three senders; one completes inside of start(), one before start() returns, one later; then the operation is destroyed *)
Example when_all_demo : exists s, run (a_step 3 true) (a_init 3) [ALStart; ALStep; ALStep; ALComp 1; ALStep; ALComp 0; ALStep; ALComp 2; ALNotify; ALDestroy] =
    Running s [AEStart; AEChild 0; AEChild 1; AEComp 1; AEChild 2; AEComp 0; AERet; AEComp 2; AEDone; AEDestroy] /\ a_quiet s /\
    a_rule 3 [AEStart; AEChild 0; AEChild 1; AEComp 1; AEChild 2; AEComp 0; AERet; AEComp 2; AEDone; AEDestroy].
Proof.
  witness. split; [split; [right|]; vmrefl|]. intros t1 e t2 H.
  do 10 (destruct t1 as [|? t1]; [injection H as <- _; simpl; auto; try (right; exists 2; repeat split; try lia; intuition discriminate); intuition|injection H as <- H]). destruct t1; discriminate.
Qed.

(** ** race_and_cancel *)
(** C41: the receiver is notified at most once. *)
Theorem C41_race_once : forall n, 0 < n -> forall ls s tr, run (r_step n) r_init ls = Running s tr -> r_dones tr <= 1.
Proof. exact r_once. Qed.
Print Assumptions C41_race_once.

(** C41: it is notified only after all operations completed. *)
Theorem C41_race_after : forall n, 0 < n -> forall ls s t1 t2, run (r_step n) r_init ls = Running s (t1 ++ REDone :: t2) -> forall i, i < n -> In (REComp i) t1.
Proof. exact r_after. Qed.
Print Assumptions C41_race_after.

(** C41: once all operations completed and no call is in flight, it was notified. *)
Theorem C41_race_complete : forall n, 0 < n -> forall ls s tr, run (r_step n) r_init ls = Running s tr -> r_quiet s ->
  (forall i, i < n -> In (REComp i) tr) -> In REDone tr.
Proof. exact r_quiet_done. Qed.
Print Assumptions C41_race_complete.

(** C41: start() starts each operation once, in order. *)
Theorem C41_race_started : forall n, 0 < n -> forall ls s tr, run (r_step n) r_init ls = Running s tr ->
  NoDup (r_children tr) /\ (r_quiet s -> In REStart tr -> r_children tr = seq 0 n).
Proof. exact r_started. Qed.
Print Assumptions C41_race_started.

(** C41: when the completion call of the operation that completed first returns, cancellation of each other operation was requested. *)
Theorem C41_race_losers : forall n, 0 < n -> forall ls s t1 t2 w, run (r_step n) r_init ls = Running s (t1 ++ RECRet w :: t2) -> r_first t1 w ->
  forall j, j < n -> j <> w -> In (RECancel j) t1.
Proof. exact r_losers. Qed.
Print Assumptions C41_race_losers.

(** C41: a token is cancelled at most once, only after some operation completed, and the token of the operation that completed first is not. *)
Theorem C41_race_winner : forall n, 0 < n -> forall ls s t1 t2 j, run (r_step n) r_init ls = Running s (t1 ++ RECancel j :: t2) ->
  j < n /\ ~ In (RECancel j) t1 /\ exists w, r_first t1 w /\ j <> w.
Proof. exact r_cancel_cause. Qed.
Print Assumptions C41_race_winner.

(** C41: calls in flight never get stuck, and they return after finitely many steps. *)
Theorem C41_race_progress : forall n s, (forall l, r_internal l -> r_step n s l = Disabled) -> r_quiet s.
Proof. exact r_progress. Qed.
Print Assumptions C41_race_progress.
Theorem C41_race_finishes : forall n, 0 < n -> forall s, exists m, forall ls tr s' tr', Forall r_internal ls -> run_from (r_step n) s tr ls = Running s' tr' -> length ls <= m.
Proof. exact r_finishes. Qed.
Print Assumptions C41_race_finishes.

(** C42: if the operation is destroyed after the notification, and not before the completion call of the operation that completed first has
    returned, then it is not accessed after its destruction. *)
Theorem C42_race_safe_partial : forall n, 0 < n -> forall ls f tr, run (r_step n) r_init ls = Failed f tr -> ~ r_rule tr.
Proof. exact r_safe. Qed.
Print Assumptions C42_race_safe_partial.

(** C42 is false: the first completion call is still cancelling the others when the last one notifies the receiver, which destroys the
    operation. *)
Theorem C42_race_use_after_free_refuted : exists n ls tr, run (r_step n) r_init ls = Failed UseAfterFree tr /\
  tr = [REStart; REChild 0; REChild 1; RERet; REComp 0; REComp 1; REDone; RECRet 1; REDestroy].
Proof. exists 2, [RLStart; RLStep; RLStep; RLStep; RLComp 0; RLComp 1; RLAct 1; RLDestroy; RLAct 0; RLAct 0]. witness. vmrefl. Qed.
Print Assumptions C42_race_use_after_free_refuted.
(** This also happens without a second thread: with three operations, cancel() of the second one completes the second and the third one. *)
Theorem C42_race_single_thread_refuted : exists n ls tr, run (r_step n) r_init ls = Failed UseAfterFree tr /\
  tr = [REStart; REChild 0; REChild 1; REChild 2; RERet; REComp 0; RECancel 1; REComp 1; RECRet 1; REComp 2; REDone; RECRet 2; REDestroy].
Proof. exists 3, [RLStart; RLStep; RLStep; RLStep; RLStep; RLComp 0; RLAct 0; RLAct 0; RLComp 1; RLAct 1; RLComp 2; RLAct 2; RLDestroy; RLAct 0]. witness. vmrefl. Qed.
Print Assumptions C42_race_single_thread_refuted.

(** Three operations, operation 1 wins; operation 0 completes inside of cs_[0].cancel() *)
Example race_demo : exists s, run (r_step 3) r_init
    [RLStart; RLStep; RLStep; RLStep; RLStep; RLComp 1; RLAct 0; RLComp 0; RLAct 1; RLAct 0; RLAct 0; RLAct 0; RLComp 2; RLAct 2; RLDestroy] =
    Running s [REStart; REChild 0; REChild 1; REChild 2; RERet; REComp 1; RECancel 0; REComp 0; RECRet 0; RECancel 2; RECRet 1; REComp 2; REDone; RECRet 2; REDestroy] /\ r_quiet s /\
    r_rule [REStart; REChild 0; REChild 1; REChild 2; RERet; REComp 1; RECancel 0; REComp 0; RECRet 0; RECancel 2; RECRet 1; REComp 2; REDone; RECRet 2; REDestroy].
Proof.
  witness. split.
  - split; [right; vmrefl|]. vm_compute. intros a H. repeat (destruct H as [<-|H]; [eexists; reflexivity|]). contradiction.
  - intros t1 t2 H. do 14 (destruct t1 as [|? t1]; [discriminate|injection H as <- H]). destruct t1 as [|? t1]; [|destruct t1; discriminate].
    split; [simpl; tauto|]. intros w [l Hw]. unfold r_comps in Hw. simpl in Hw. injection Hw as <- _. simpl. tauto.
Qed.
