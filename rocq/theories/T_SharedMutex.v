(** Property theorems for shared_mutex: C26, C27, C28, C29. *)
From Coq Require Import List Arith Bool Lia.
From Verif Require Import Lts M_Mutex S_Mutex M_SharedMutex S_SharedMutex P_SharedMutex P_SharedMutexMain T_Mutex.
Import ListNotations.

(** ** C26: exclusion *)
(** At every point of an execution there is at most one exclusive owner, and with an exclusive owner there is no shared one. *)
Theorem C26_shared_mutex_exclusive : forall ls s t1 t2, run r_step r_init ls = Running s (t1 ++ t2) -> owners_unlock (t1 ++ t2) ->
  held true t1 <= 1 /\ (held true t1 = 1 -> held false t1 = 0).
Proof. exact r_exclusive. Qed.
Print Assumptions C26_shared_mutex_exclusive.

(** [held] is a true difference. *)
Theorem C26_shared_mutex_counts : forall ls s tr x, run r_step r_init ls = Running s tr -> owners_unlock tr -> unls x tr <= acqs x tr.
Proof. exact r_counts. Qed.
Print Assumptions C26_shared_mutex_counts.

(** No assertion fails and no destroyed operation is accessed. *)
Theorem C26_shared_mutex_asserts : forall ls f tr, run r_step r_init ls = Failed f tr -> ~ owners_unlock tr.
Proof. exact r_safe. Qed.
Print Assumptions C26_shared_mutex_asserts.

(** Each operation acquires at most once, in the mode in which it was started. *)
Theorem C26_shared_mutex_once : forall ls s tr, run r_step r_init ls = Running s tr -> owners_unlock tr ->
  NoDup (acquired tr) /\ (forall o x, In (EAcq o x) tr -> In (EStart o x) tr).
Proof. exact r_once. Qed.
Print Assumptions C26_shared_mutex_once.

(** ** C27: order *)
(** Operations that had to suspend acquire in the order of suspension. *)
Theorem C27_shared_mutex_fifo : forall ls s tr, run r_step r_init ls = Running s tr -> owners_unlock tr ->
  exists waiting, susps tr = served tr ++ waiting.
Proof. exact r_fifo. Qed.
Print Assumptions C27_shared_mutex_fifo.

(** They are also chosen by unlock() and unlock_shared() in this order. *)
Theorem C27_shared_mutex_hands : forall ls s tr, run r_step r_init ls = Running s tr -> owners_unlock tr ->
  exists waiting, susps tr = hands tr ++ waiting.
Proof. exact r_hands. Qed.
Print Assumptions C27_shared_mutex_hands.

(** An operation o' started after the suspension of o acquires only after o has been chosen; if o is exclusive, after o has acquired.
    Missing: for shared operations o, that o has acquired ([C27_shared_mutex_refuted]). *)
Theorem C27_shared_mutex_barge_partial : forall ls s t1 o o' x t2, run r_step r_init ls = Running s (t1 ++ EAcq o' x :: t2) ->
  owners_unlock (t1 ++ EAcq o' x :: t2) -> suspended_first o o' t1 -> In o (hands t1) /\ (In (EStart o true) t1 -> In o (acquired t1)).
Proof. exact r_barge. Qed.
Print Assumptions C27_shared_mutex_barge_partial.

(** A try succeeds only if all operations that suspended have been chosen; they have acquired, if the try or the operation is exclusive. *)
Theorem C27_shared_mutex_try_partial : forall ls s t1 x t2, run r_step r_init ls = Running s (t1 ++ ETry x true :: t2) ->
  owners_unlock (t1 ++ ETry x true :: t2) ->
  incl (susps t1) (hands t1) /\ forall o, In o (susps t1) -> x = true \/ In (EStart o true) t1 -> In o (acquired t1).
Proof. exact r_try. Qed.
Print Assumptions C27_shared_mutex_try_partial.

(** Readers 1 and 2 are suspended; unlock() makes both owners; before it completes them, try_lock_shared() succeeds and reader 3 acquires. *)
Definition early : list rlabel :=
  [RTryX; RStart 1 false; RStep 0 false; RStep 0 false; RStep 0 false; RStep 0 false;
   RStart 2 false; RStep 1 false; RStep 1 false; RStep 1 false; RStep 1 false;
   RUnlock true; RStep 2 false; RStep 2 false; RTryS; RStep 3 false; RStep 3 false;
   RStart 3 false; RStep 4 false; RStep 4 false; RStep 4 false].
Theorem C27_shared_mutex_refuted : exists ls s t1, run r_step r_init ls = Running s (t1 ++ [EAcq 3 false]) /\
  owners_unlock (t1 ++ [EAcq 3 false]) /\ suspended_first 1 3 t1 /\ ~ In 1 (acquired t1) /\
  (exists t2 t3, t1 = t2 ++ ETry false true :: t3 /\ In 1 (susps t2) /\ ~ In 1 (acquired t2)).
Proof.
  exists early. set (t2 := [ETry true true; EStart 1 false; ESusp 1; EStart 2 false; ESusp 2; EUnlock true; EHand 1; EHand 2]).
  assert (H : exists s, run r_step r_init early = Running s ((t2 ++ [ETry false true; EStart 3 false]) ++ [EAcq 3 false]) /\ True) by (witness; exact I).
  destruct H as (s & H & _). exists s, (t2 ++ [ETry false true; EStart 3 false]). split; [exact H|]. split; [apply ownb_sound; vmrefl|].
  split; [exists (t2 ++ [ETry false true]), false, []; split; [reflexivity|now left]|]. split; [simpl; tauto|]. exists t2, [EStart 3 false]. split; [reflexivity|]. split; [now left|simpl; tauto].
Qed.
Print Assumptions C27_shared_mutex_refuted.

(** ** C28: completion *)
Theorem C28_shared_mutex_idle : forall ls s tr, run r_step r_init ls = Running s tr -> owners_unlock tr ->
  r_quiet s -> held true tr = 0 -> held false tr = 0 -> incl (started_ops tr) (acquired tr).
Proof. exact r_idle. Qed.
Print Assumptions C28_shared_mutex_idle.

Theorem C28_shared_mutex_pending : forall ls s tr o, run r_step r_init ls = Running s tr -> owners_unlock tr ->
  r_quiet s -> In o (started_ops tr) -> ~ In o (acquired tr) ->
  (In o (susps tr) /\ ~ In o (hands tr)) /\ (held true tr = 1 \/ held false tr > 0).
Proof. exact r_pending. Qed.
Print Assumptions C28_shared_mutex_pending.

Theorem C28_shared_mutex_progress : forall ls s tr, run r_step r_init ls = Running s tr -> owners_unlock tr ->
  (forall k, r_step s (RStep k false) = Disabled) -> r_quiet s.
Proof. exact r_progress. Qed.
Print Assumptions C28_shared_mutex_progress.

(** All calls return: up to spurious failures, the number of their steps is bounded. *)
Theorem C28_shared_mutex_finishes : forall (s : rst) tr,
  exists n, forall ls' s' tr', Forall r_internal ls' -> run_from r_step s tr ls' = Running s' tr' -> length ls' <= n + r_nspur ls'.
Proof. exact r_finishes. Qed.
Print Assumptions C28_shared_mutex_finishes.

(** ** C29: the documentation says that acquiring in shared mode only blocks if the mutex is owned exclusively *)
(** There is a shared owner; a writer is suspended.  Then async_lock_shared() suspends and try_lock_shared() fails. *)
Definition behind_writer : list rlabel :=
  [RStart 0 false; RStep 0 false; RStep 0 false; RStep 0 false; RStart 1 true; RStep 1 false; RStep 1 false; RStep 1 false;
   RStart 2 false; RStep 2 false; RStep 2 false; RStep 2 false; RStep 2 false; RTryS; RStep 3 false; RStep 3 false].
Theorem C29_shared_mutex_refuted : exists ls s t1 t2, run r_step r_init ls = Running s (t1 ++ t2) /\ owners_unlock (t1 ++ t2) /\
  held true t1 = 0 /\ held true (t1 ++ t2) = 0 /\ t2 = [EStart 2 false; ESusp 2; ETry false false].
Proof.
  exists behind_writer. assert (H : exists s, run r_step r_init behind_writer = Running s ([EStart 0 false; EAcq 0 false; EStart 1 true; ESusp 1] ++ [EStart 2 false; ESusp 2; ETry false false]) /\ True) by (witness; exact I).
  destruct H as (s & H & _). exists s. do 2 eexists. split; [exact H|]. split; [apply ownb_sound; vmrefl|]. repeat split; vmrefl.
Qed.
Print Assumptions C29_shared_mutex_refuted.

(** Started while no other call is in flight, a shared operation suspends only if there is an exclusive owner or a suspended operation.
    Missing compared to the documentation: without the second alternative, which is refuted above; and concurrent calls. *)
Theorem C29_shared_mutex_partial : forall ls s tr o ls' s' tr', run r_step r_init ls = Running s tr -> owners_unlock tr -> r_quiet s ->
  Forall r_internal ls' -> run_from r_step s tr (RStart o false :: ls') = Running s' tr' -> In o (susps tr') ->
  held true tr = 1 \/ exists o', In o' (susps tr) /\ ~ In o' (acquired tr).
Proof. exact r_shared_free. Qed.
Print Assumptions C29_shared_mutex_partial.

(** ** Witnesses *)
(** Readers 1 and 2, writer 3 and reader 4 are suspended; unlock() completes 1 and 2, between these a try fails; the second unlock_shared()
    hands over to 3; unlock() hands over to 4; try_lock_shared() succeeds. *)
Definition demo : list rlabel :=
  [RTryX; RStart 1 false; RStep 0 false; RStep 0 false; RStep 0 false; RStep 0 true; RStep 0 false;
   RStart 2 false; RStep 1 false; RStep 1 false; RStep 1 false; RStep 1 false;
   RStart 3 true; RStep 2 false; RStep 2 false; RStep 2 false;
   RStart 4 false; RStep 3 false; RStep 3 false; RStep 3 false; RStep 3 false;
   RUnlock true; RStep 4 false; RStep 4 false; RStep 4 false; RTryS; RStep 5 false; RStep 5 false; RStep 4 false;
   RUnlock false; RStep 6 false; RStep 6 false; RUnlock false; RStep 7 false; RStep 7 false; RStep 7 false;
   RUnlock true; RStep 8 false; RStep 8 false; RStep 8 false; RTryS; RStep 9 false; RStep 9 false; RTryX].
Example demo_run : exists s tr, run r_step r_init demo = Running s tr /\ owners_unlock tr /\
  tr = [ETry true true; EStart 1 false; ESusp 1; EStart 2 false; ESusp 2; EStart 3 true; ESusp 3; EStart 4 false; ESusp 4; EUnlock true;
        EHand 1; EHand 2; EAcq 1 false; ETry false false; EAcq 2 false; EUnlock false; EUnlock false; EHand 3; EAcq 3 true; EUnlock true; EHand 4;
        EAcq 4 false; ETry false true; ETry true false] /\
  forallb (fun a => match a with REnd => true | _ => false end) (r_act s) = true /\ (held true tr, held false tr) = (0, 2).
Proof. witness. split; [apply ownb_sound; vmrefl|]. split; [vmrefl|]. split; vmrefl. Qed.
(** C29_shared_mutex_partial: an exclusive owner, a shared operation suspends *)
Example demo_suspends : exists s tr, run r_step r_init ([RTryX] ++ RStart 1 false :: [RStep 0 false; RStep 0 false; RStep 0 false; RStep 0 false]) = Running s tr /\
  (susps tr = [1] /\ owners_unlock tr).
Proof. witness. split; [vmrefl|apply ownb_sound; vmrefl]. Qed.
(** unlock() by a client that owns the mutex only in shared mode: an assertion fails *)
Example misuse : exists tr, run r_step r_init [RTryS; RStep 0 false; RStep 0 false; RUnlock true; RStep 1 false] = Failed AssertFailed tr.
Proof. witness. Qed.
