(** Property theorems for shared_mutex under the C++ memory model: C52, C53. *)
From Coq Require Import List Arith Bool Lia.
From Verif Require Import Lts M_Mutex S_Mutex M_SharedMutex M_Weak M_SharedMutexW S_SharedMutexW P_SharedMutexW P_SharedMutexWD.
Import ListNotations.

(** ** C52: stale values of st_ do not break the protocol *)
(** At most one exclusive owner, and no shared owner beside it. *)
Theorem C52_shared_mutex_exclusive : forall ls s tr, run (y_step code) y_init ls = Running s tr ->
  acqs true (sapi tr) <= unls true (sapi tr) + 1 /\ (unls true (sapi tr) < acqs true (sapi tr) -> acqs false (sapi tr) = unls false (sapi tr)).
Proof. exact (sharedw_exclusive code). Qed.
Print Assumptions C52_shared_mutex_exclusive.

(** No assertion fails; the nodes of waiters_ exist when they are accessed, and their construction happens before that. *)
Theorem C52_shared_mutex_asserts : forall ls f tr, run (y_step code) y_init ls <> Failed f tr.
Proof. exact (sharedw_safe code). Qed.
Print Assumptions C52_shared_mutex_asserts.

(** ** C53: the mutex orders the accesses of its owners *)
(** Not for the code as it is.  Two threads share the mutex; the first one reads the protected data.  A writer suspends.
    Both readers unlock; the second one hands the mutex to the writer, which writes: nothing orders this write after the
    read of the first reader, whose compare-exchange (release) was not read by an acquire operation (lines 559-586). *)
Definition shared_handoff : list ylabel :=
  [YStart 1 false vbot; YStep 0 0 false; YStep 0 0 false; YStep 0 0 false;
   YStart 2 false vbot; YStep 1 1 false; YStep 1 1 false; YStep 1 0 false; YRead 0;
   YStart 3 true vbot; YStep 2 2 false; YStep 2 2 false; YStep 2 2 false;
   YUnlock false 0; YStep 3 3 false; YStep 3 3 false;
   YUnlock false 0; YStep 4 4 false; YStep 4 4 false; YStep 4 0 false; YWrite 0].
Theorem C53_shared_mutex_writes_refuted : exists ls s tr, run (y_step code) y_init ls = Running s tr /\ ~ writes_ordered tr.
Proof.
  exists shared_handoff. set (t1 := [EA (EStart 1 false); EA (EAcq 1 false); EA (EStart 2 false); EA (EAcq 2 false); ERd 0 []; EA (EStart 3 true); EA (ESusp 3);
    EA (EUnlock false); EA (EUnlock false); EA (EHand 3); EA (EAcq 3 true)]).
  assert (E : exists s, run (y_step code) y_init shared_handoff = Running s (t1 ++ [EWr 1 []]) /\ True) by (witness; exact I).
  destruct E as (s & E & _). exists s, (t1 ++ [EWr 1 []]). split; auto. intros H. destruct (H t1 1 [] [] eq_refl) as [_ H1]. exact (H1 0 ltac:(lia)).
Qed.
Print Assumptions C53_shared_mutex_writes_refuted.

(** An exclusive owner writes and hands the mutex to a suspended reader by a relaxed store (lines 492-502).  Another thread
    joins the readers by try_lock_shared(); its compare-exchange (acquire) reads from that store, so that nothing orders its
    read after the write, although the mutex was released by the writer and acquired by the reader. *)
Definition batch_handoff : list ylabel :=
  [YTryX vbot 0; YWrite 0; YStart 1 false vbot; YStep 0 1 false; YStep 0 1 false; YStep 0 1 false; YStep 0 1 false;
   YUnlock true 0; YStep 1 2 false; YStep 1 0 false; YTryS vbot; YStep 2 3 false; YStep 2 3 false; YRead 0].
Theorem C53_shared_mutex_reads_refuted : exists ls s tr, run (y_step code) y_init ls = Running s tr /\ ~ reads_ordered tr.
Proof.
  exists batch_handoff. set (t1 := [EA (ETry true true); EWr 0 []; EA (EStart 1 false); EA (ESusp 1); EA (EUnlock true); EA (EHand 1); EA (ETry false true)]).
  assert (E : exists s, run (y_step code) y_init batch_handoff = Running s (t1 ++ [ERd 1 []]) /\ True) by (witness; exact I).
  destruct E as (s & E & _). exists s, (t1 ++ [ERd 1 []]). split; auto. intros H. destruct (H t1 1 [] [] eq_refl) as [_ H1]. exact (H1 0 ltac:(now left)).
Qed.
Print Assumptions C53_shared_mutex_reads_refuted.

(** What holds: there is no race as long as no operation had to suspend ... *)
Theorem C53_shared_mutex_uncontended_partial : forall ls s tr, run (y_step code) y_init ls = Running s tr ->
  (forall o, ~ In (EA (ESusp o)) tr) -> srace_free tr.
Proof. exact (sharedw_nosusp code). Qed.
Print Assumptions C53_shared_mutex_uncontended_partial.

(** ... and always, if unlock() hands over by release stores, and unlock_shared() by exchanges with acquire. *)
Theorem C53_shared_mutex_repaired : forall ls s tr, run (y_step repaired) y_init ls = Running s tr -> srace_free tr.
Proof. exact sharedw_race_free. Qed.
Print Assumptions C53_shared_mutex_repaired.

(** Each of the two changes is needed. *)
Theorem C53_shared_mutex_only_x_refuted : exists ls s tr, run (y_step (Ord true false)) y_init ls = Running s tr /\ ~ writes_ordered tr.
Proof.
  exists shared_handoff. set (t1 := [EA (EStart 1 false); EA (EAcq 1 false); EA (EStart 2 false); EA (EAcq 2 false); ERd 0 []; EA (EStart 3 true); EA (ESusp 3);
    EA (EUnlock false); EA (EUnlock false); EA (EHand 3); EA (EAcq 3 true)]).
  assert (E : exists s, run (y_step (Ord true false)) y_init shared_handoff = Running s (t1 ++ [EWr 1 []]) /\ True) by (witness; exact I).
  destruct E as (s & E & _). exists s, (t1 ++ [EWr 1 []]). split; auto. intros H. destruct (H t1 1 [] [] eq_refl) as [_ H1]. exact (H1 0 ltac:(lia)).
Qed.
Print Assumptions C53_shared_mutex_only_x_refuted.
Theorem C53_shared_mutex_only_s_refuted : exists ls s tr, run (y_step (Ord false true)) y_init ls = Running s tr /\ ~ reads_ordered tr.
Proof.
  exists batch_handoff. set (t1 := [EA (ETry true true); EWr 0 []; EA (EStart 1 false); EA (ESusp 1); EA (EUnlock true); EA (EHand 1); EA (ETry false true)]).
  assert (E : exists s, run (y_step (Ord false true)) y_init batch_handoff = Running s (t1 ++ [ERd 1 []]) /\ True) by (witness; exact I).
  destruct E as (s & E & _). exists s, (t1 ++ [ERd 1 []]). split; auto. intros H. destruct (H t1 1 [] [] eq_refl) as [_ H1]. exact (H1 0 ltac:(now left)).
Qed.
Print Assumptions C53_shared_mutex_only_s_refuted.

(** The runs above with the repaired orders: the accesses are ordered. *)
Example C53_repaired_example1 : exists s, run (y_step repaired) y_init shared_handoff =
  Running s [EA (EStart 1 false); EA (EAcq 1 false); EA (EStart 2 false); EA (EAcq 2 false); ERd 0 []; EA (EStart 3 true); EA (ESusp 3);
             EA (EUnlock false); EA (EUnlock false); EA (EHand 3); EA (EAcq 3 true); EWr 1 [0]] /\ True.
Proof. witness. exact I. Qed.
Example C53_repaired_example2 : exists s, run (y_step repaired) y_init batch_handoff =
  Running s [EA (ETry true true); EWr 0 []; EA (EStart 1 false); EA (ESusp 1); EA (EUnlock true); EA (EHand 1); EA (ETry false true); ERd 1 [0]] /\ True.
Proof. witness. exact I. Qed.
(** A run without suspension: two readers, then a writer that knows about both of them only from the mutex. *)
Example C53_uncontended_example : exists s, run (y_step code) y_init
  [YTryS vbot; YStep 0 0 false; YStep 0 0 false; YTryS vbot; YStep 1 1 false; YStep 1 1 false; YRead 0; YRead 1;
   YUnlock false 0; YStep 2 2 false; YStep 2 2 false; YUnlock false 0; YStep 3 3 false; YStep 3 3 false; YTryX vbot 4; YWrite 0] =
  Running s [EA (ETry false true); EA (ETry false true); ERd 0 []; ERd 1 []; EA (EUnlock false); EA (EUnlock false); EA (ETry true true); EWr 2 [0; 1]] /\ True.
Proof. witness. exact I. Qed.
