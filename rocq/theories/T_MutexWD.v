(** Property theorems for the destruction of mutex and shared_mutex under the C++ memory model: C87, C88. *)
From Coq Require Import List Arith Bool Lia.
From Verif Require Import Lts M_Mutex S_Mutex M_SharedMutex M_Weak M_MutexW S_MutexW P_MutexWD M_MutexWD M_SharedMutexW S_SharedMutexW M_SharedMutexWD P_SharedMutexWL.
Import ListNotations.

(** ** C87: the last owner may destroy the mutex *)
(** The last call of unlock() (the call with the number [length (x_act s1)]) has returned, the receivers of all operations were
    notified, and all owners called unlock().  Then every access to the mutex by any call, including the calls of start() and unlock() of
    other threads for which nobody has waited, happens before that return: v is the view of the thread of the last call. *)
Theorem C87_mutex : forall ls1 s1 n1 tr1 j ls2 s n tr v, run z_step z_init ls1 = Running (s1, n1) tr1 ->
  run z_step z_init (ls1 ++ XUnlock j :: ls2) = Running (s, n) tr -> (forall i, ~ In (XUnlock i) ls2) ->
  nth_error (x_act s) (length (x_act s1)) = Some (AEnd, v) -> incl (started_ops (api tr)) (acquired (api tr)) ->
  acqs true (api tr) = unls true (api tr) -> forall m, m < n -> In (TCall m) (v_tok v).
Proof. exact z_destroy. Qed.
Print Assumptions C87_mutex.

(** Recording the accesses changes nothing: no assertion fails, no node is accessed too late or without synchronization. *)
Theorem C87_mutex_safe : forall ls f tr, run z_step z_init ls <> Failed f tr.
Proof. exact z_safe. Qed.
Print Assumptions C87_mutex_safe.

(** *** Witnesses *)
(** A thread locks by try_lock().  Operation 0 of another thread (which knows nothing) suspends: call 0 makes the accesses 1, 2, 3.  The
    owner passes the mutex on (call 1, accesses 4, 5, 6; 5 is the critical section) ... *)
Definition wd_1 : list xlabel :=
  [XTry vbot 0; XStart 0 vbot; XStep 0 1 false; XStep 0 1 false; XStep 0 1 false; XUnlock 0; XStep 1 2 false; XStep 1 2 false; XStep 1 2 false].
(** ... to operation 0, which unlocks (call 2, accesses 7 and 8) *)
Definition wd_2 : list xlabel := [XStep 2 3 false; XStep 2 3 false].
Example wd_run1 : exists z tr, run z_step z_init wd_1 = Running z tr /\ length (x_act (fst z)) = 2 /\ snd z = 7 /\
  api tr = [ETry true true; EStart 0 true; ESusp 0; EUnlock true; EHand 0; EAcq 0 true].
Proof. witness. repeat split; vmrefl. Qed.
Example wd_run2 : exists z tr, run z_step z_init (wd_1 ++ XUnlock 0 :: wd_2) = Running z tr /\ (forall i, ~ In (XUnlock i) wd_2) /\
  (exists v, nth_error (x_act (fst z)) 2 = Some (AEnd, v) /\ forall m, m < 9 -> In (TCall m) (v_tok v)) /\ snd z = 9 /\
  incl (started_ops (api tr)) (acquired (api tr)) /\ acqs true (api tr) = unls true (api tr).
Proof.
  witness. split; [intros i [H|[H|[]]]; discriminate|]. split.
  - eexists. split; [vm_compute; reflexivity|]. intros m Hm. do 9 (destruct m as [|m]; [vm_compute; tauto|]). lia.
  - split; [vmrefl|]. split; [vm_compute; intros o [<-|[]]; now left|vmrefl].
Qed.
(** The acquire order matters.  The first owner unlocks by a compare-exchange with release (access 2); the second one locks by one with
    acquire and so knows of the accesses 0, 1, 2 although its thread knew nothing. *)
Definition wd_fast : list xlabel := [XTry vbot 0; XUnlock 0; XStep 0 1 false; XStep 0 1 false; XTry vbot 2].
Example wd_fast_run : exists z tr, run z_step z_init wd_fast = Running z tr /\ map v_tok (x_own (fst z)) = [[TCall 3; TCall 2; TCall 1; TCall 0]] /\
  api tr = [ETry true true; EUnlock true; ETry true true].
Proof. witness. split; vmrefl. Qed.
(** An operation that has not been notified is a reason not to destroy the mutex: its accesses (2 and 3) are unknown to the thread of the last call. *)
Definition wd_open1 : list xlabel := [XTry vbot 0; XStart 0 vbot; XStep 0 1 false].
Definition wd_open2 : list xlabel := [XStep 1 1 false; XStep 1 1 false; XStep 0 2 false].
Example wd_open : exists z tr, run z_step z_init (wd_open1 ++ XUnlock 0 :: wd_open2) = Running z tr /\
  (exists v, nth_error (x_act (fst z)) 1 = Some (AEnd, v) /\ ~ In (TCall 1) (v_tok v) /\ ~ In (TCall 4) (v_tok v)) /\ snd z = 5 /\ started_ops (api tr) = [0] /\ acquired (api tr) = [].
Proof.
  witness. split; [|repeat split; vmrefl]. eexists. split; [vm_compute; reflexivity|]. vm_compute. split; intros H; repeat destruct H as [H|H]; discriminate || exact H.
Qed.

(** ** C88: the last owner may destroy the shared_mutex *)
(** Not for the code as it is.  Two readers; a writer suspends; the first reader unlocks by a compare-exchange (release), the second one
    passes the mutex on by a relaxed store (lines 559-586) without an acquire operation; the writer unlocks.  Nothing orders the accesses of
    the first reader before the return of this last call of unlock(), although all operations were notified and all owners have unlocked. *)
Definition sd_1 : list ylabel :=
  [YStart 1 false vbot; YStep 0 0 false; YStep 0 0 false; YStep 0 0 false;
   YStart 2 false vbot; YStep 1 1 false; YStep 1 1 false; YStep 1 0 false;
   YStart 3 true vbot; YStep 2 2 false; YStep 2 2 false; YStep 2 2 false;
   YUnlock false 0; YStep 3 3 false; YStep 3 3 false;
   YUnlock false 0; YStep 4 4 false; YStep 4 4 false; YStep 4 0 false].
Definition sd_2 : list ylabel := [YStep 5 5 false; YStep 5 5 false].
Definition sd_all (d : ord) : Prop :=
  forall ls1 s1 n1 tr1 j ls2 s n tr v, run (u_step d) u_init ls1 = Running (s1, n1) tr1 ->
  run (u_step d) u_init (ls1 ++ YUnlock true j :: ls2) = Running (s, n) tr -> (forall x i, ~ In (YUnlock x i) ls2) ->
  nth_error (y_act s) (length (y_act s1)) = Some (REnd, v) -> incl (started_ops (sapi tr)) (acquired (sapi tr)) ->
  acqs true (sapi tr) = unls true (sapi tr) -> acqs false (sapi tr) = unls false (sapi tr) -> forall m, m < n -> In (TCall m) (v_tok v).
Theorem C88_shared_mutex_refuted : ~ sd_all code.
Proof.
  intros H.
  assert (E1 : exists z tr, run (u_step code) u_init sd_1 = Running z tr /\ length (y_act (fst z)) = 5) by (witness; vmrefl).
  assert (E2 : exists z tr, run (u_step code) u_init (sd_1 ++ YUnlock true 0 :: sd_2) = Running z tr /\ (exists v, nth_error (y_act (fst z)) 5 = Some (REnd, v) /\ ~ In (TCall 10) (v_tok v)) /\
    snd z = 16 /\ incl (started_ops (sapi tr)) (acquired (sapi tr)) /\ acqs true (sapi tr) = unls true (sapi tr) /\ acqs false (sapi tr) = unls false (sapi tr)).
  { witness. split; [eexists; split; [vm_compute; reflexivity|]; vm_compute; intros F; repeat destruct F as [F|F]; discriminate || exact F|]. split; [vmrefl|].
    split; [vm_compute; intros o [<-|[<-|[<-|[]]]]; tauto|]. split; vmrefl. }
  destruct E1 as ([s1 n1] & tr1 & R1 & L1). destruct E2 as ([s n] & tr & R2 & (v & Hk & Hv) & Hn & Ha & Hx & Hs). cbn [fst snd] in *.
  apply Hv. refine (H sd_1 s1 n1 tr1 0 sd_2 s n tr v R1 R2 _ _ Ha Hx Hs 10 _); [|rewrite L1; exact Hk|lia].
  intros x i [F|[F|[]]]; discriminate.
Qed.
Print Assumptions C88_shared_mutex_refuted.

(** The trace of this run, and the same run with the exchange of [repaired]: the last call knows of all accesses of the calls of the first
    reader (0, 1, 2 by start(), 9, 10 by unlock_shared()). *)
Example sd_run : exists z tr, run (u_step code) u_init (sd_1 ++ YUnlock true 0 :: sd_2) = Running z tr /\
  sapi tr = [EStart 1 false; EAcq 1 false; EStart 2 false; EAcq 2 false; EStart 3 true; ESusp 3; EUnlock false; EUnlock false; EHand 3; EAcq 3 true; EUnlock true].
Proof. witness. vmrefl. Qed.
Example sd_repaired : exists z tr, run (u_step repaired) u_init (sd_1 ++ YUnlock true 0 :: sd_2) = Running z tr /\
  (exists v, nth_error (y_act (fst z)) 5 = Some (REnd, v) /\ forall m, m < 16 -> In (TCall m) (v_tok v)) /\ snd z = 16.
Proof.
  witness. split; [|vmrefl]. eexists. split; [vm_compute; reflexivity|]. intros m Hm. do 16 (destruct m as [|m]; [vm_compute; tauto|]). lia.
Qed.

(** With an acquire operation in the hand-off by unlock_shared() (the orders of the hand-off by unlock() do not matter for this). *)
Theorem C88_shared_mutex_repaired : forall d, fix_s d = true -> sd_all d.
Proof. intros d Hd ls1 s1 n1 tr1 j ls2 s n tr v. apply u_destroy. exact Hd. Qed.
Print Assumptions C88_shared_mutex_repaired.

(** For the code as it is, if no exclusive operation is ever suspended (shared ones may be): what is missing are executions in which readers
    pass the mutex on to a waiting writer. *)
Theorem C88_shared_mutex_partial : forall ls1 s1 n1 tr1 j ls2 s n tr v, run (u_step code) u_init ls1 = Running (s1, n1) tr1 ->
  run (u_step code) u_init (ls1 ++ YUnlock true j :: ls2) = Running (s, n) tr -> (forall x i, ~ In (YUnlock x i) ls2) -> x_never_suspends tr ->
  nth_error (y_act s) (length (y_act s1)) = Some (REnd, v) -> incl (started_ops (sapi tr)) (acquired (sapi tr)) ->
  acqs true (sapi tr) = unls true (sapi tr) -> acqs false (sapi tr) = unls false (sapi tr) -> forall m, m < n -> In (TCall m) (v_tok v).
Proof. exact (u_destroy_partial code). Qed.
Print Assumptions C88_shared_mutex_partial.

(** A writer locks by try_lock() (access 0), the readers 1 and 2 suspend (3 accesses each), the writer passes the mutex on to both, they unlock,
    another writer (operation 3) locks and unlocks.  It knows all accesses. *)
Definition sp_1 : list ylabel :=
  [YTryX vbot 0; YStart 1 false vbot; YStep 0 1 false; YStep 0 1 false; YStep 0 1 false; YStep 0 1 false;
   YStart 2 false vbot; YStep 1 2 false; YStep 1 2 false; YStep 1 2 false; YStep 1 2 false;
   YUnlock true 0; YStep 2 2 false; YStep 2 2 false; YStep 2 0 false; YStep 2 0 false;
   YUnlock false 0; YStep 3 3 false; YStep 3 3 false; YUnlock false 0; YStep 4 4 false; YStep 4 4 false;
   YStart 3 true vbot; YStep 5 5 false; YStep 5 0 false].
Definition sp_2 : list ylabel := [YStep 6 6 false; YStep 6 6 false].
Example sp_run1 : exists z tr, run (u_step code) u_init sp_1 = Running z tr /\ length (y_act (fst z)) = 6 /\ snd z = 19.
Proof. witness. split; vmrefl. Qed.
Example sp_run2 : exists z tr, run (u_step code) u_init (sp_1 ++ YUnlock true 0 :: sp_2) = Running z tr /\ (forall x i, ~ In (YUnlock x i) sp_2) /\
  (exists v, nth_error (y_act (fst z)) 6 = Some (REnd, v)) /\ snd z = 21 /\ x_never_suspends tr /\ incl (started_ops (sapi tr)) (acquired (sapi tr)) /\
  acqs true (sapi tr) = unls true (sapi tr) /\ acqs false (sapi tr) = unls false (sapi tr) /\ susps (sapi tr) = [1; 2].
Proof.
  witness. split; [intros x i [H|[H|[]]]; discriminate|]. split; [eexists; vm_compute; reflexivity|]. split; [vmrefl|]. split.
  - unfold x_never_suspends. vm_compute. intros o H. repeat destruct H as [H|H]; try discriminate; try (destruct H; fail). injection H as <-. intros F. repeat destruct F as [F|F]; try discriminate; exact F.
  - split; [vm_compute; intros o [<-|[<-|[<-|[]]]]; tauto|]. split; [vmrefl|]. split; vmrefl.
Qed.
