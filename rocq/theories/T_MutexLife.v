(** Property theorems for the lifetime of mutex and shared_mutex: C85. *)
From Coq Require Import List Arith Bool Lia.
From Verif Require Import Lts M_Mutex S_Mutex P_Mutex T_Mutex M_SharedMutex S_SharedMutex P_SharedMutex P_MutexLife.
Import ListNotations.

(** ** C85: the last owner may destroy the mutex *)
(** If the last call of unlock() has returned (it is the call with the number [length (m_act s1)]) and the receivers of all
    operations were notified, then no call accesses the mutex any more, in particular no other call of unlock(), although
    nobody waited for them to return. *)
Theorem C85_mutex : forall ls1 s1 tr1 ls2 s tr, run m_step m_init ls1 = Running s1 tr1 ->
  run m_step m_init (ls1 ++ MUnlock :: ls2) = Running s tr -> owners_unlock tr -> ~ In MUnlock ls2 ->
  nth_error (m_act s) (length (m_act s1)) = Some AEnd -> incl (started_ops tr) (acquired tr) -> m_quiet s.
Proof. exact m_destroy. Qed.
Print Assumptions C85_mutex.

(** The same for shared_mutex, if the last call is unlock(), made by an exclusive owner, and no call of try_lock_shared() is
    in flight. *)
Theorem C85_shared_mutex : forall ls1 s1 tr1 ls2 s tr, run r_step r_init ls1 = Running s1 tr1 ->
  run r_step r_init (ls1 ++ RUnlock true :: ls2) = Running s tr -> owners_unlock tr -> (forall x, ~ In (RUnlock x) ls2) ->
  nth_error (r_act s) (length (r_act s1)) = Some REnd -> incl (started_ops tr) (acquired tr) ->
  (forall v, ~ In (STry None) (r_act s) /\ ~ In (STryL None v) (r_act s)) -> r_quiet s.
Proof. exact r_destroy. Qed.
Print Assumptions C85_shared_mutex.

(** ** Witnesses *)
(** Operation 0 suspends, the first owner passes the mutex on; its call of unlock() (number 1) is stopped just before it
    notifies operation 0 ... *)
Definition mutex_1 : list mlabel :=
  [MTry; MStart 0; MStep 0 false; MStep 0 false; MStep 0 false; MUnlock; MStep 1 false; MStep 1 false; MStep 1 false].
(** ... which then calls unlock() (number 2); that call returns *)
Definition mutex_2 : list mlabel := [MStep 2 false; MStep 2 false].
Example mutex_run1 : exists s, run m_step m_init mutex_1 = Running s [ETry true true; EStart 0 true; ESusp 0; EUnlock true; EHand 0; EAcq 0 true] /\ length (m_act s) = 2.
Proof. witness. vmrefl. Qed.
Example mutex_run2 : exists s tr, run m_step m_init (mutex_1 ++ MUnlock :: mutex_2) = Running s tr /\ owners_unlock tr /\ ~ In MUnlock mutex_2 /\
  nth_error (m_act s) 2 = Some AEnd /\ incl (started_ops tr) (acquired tr).
Proof.
  witness. split; [apply ownb_sound; vmrefl|]. split; [intros [H|[H|[]]]; discriminate|]. split; [vmrefl|]. vm_compute. intros o [<-|[]]. now left.
Qed.
(** the returned call must be the last one: here the owner's call (number 2) is still in front of its compare-exchange *)
Example mutex_early : exists s tr, run m_step m_init (mutex_1 ++ [MUnlock; MStep 2 false]) = Running s tr /\ nth_error (m_act s) 1 = Some AEnd /\ m_act s = [AEnd; AEnd; AUnlCas].
Proof. witness. split; vmrefl. Qed.

(** Two readers; an exclusive operation suspends; the last reader passes the mutex on; the exclusive owner unlocks. *)
Definition shared_1 : list rlabel :=
  [RTryS; RStep 0 false; RStep 0 false; RTryS; RStep 1 false; RStep 1 false; RStart 7 true; RStep 2 false; RStep 2 false; RStep 2 false;
   RUnlock false; RStep 3 false; RUnlock false; RStep 4 false; RStep 3 false; RStep 4 false; RStep 4 false; RStep 4 false].
Definition shared_2 : list rlabel := [RStep 5 false; RStep 5 false].
Example shared_run1 : exists s tr, run r_step r_init shared_1 = Running s tr /\ length (r_act s) = 5 /\
  tr = [ETry false true; ETry false true; EStart 7 true; ESusp 7; EUnlock false; EUnlock false; EHand 7; EAcq 7 true].
Proof. witness. split; vmrefl. Qed.
Example shared_run2 : exists s tr, run r_step r_init (shared_1 ++ RUnlock true :: shared_2) = Running s tr /\ owners_unlock tr /\ (forall x, ~ In (RUnlock x) shared_2) /\
  nth_error (r_act s) 5 = Some REnd /\ incl (started_ops tr) (acquired tr) /\ (forall v, ~ In (STry None) (r_act s) /\ ~ In (STryL None v) (r_act s)).
Proof.
  witness. split; [apply ownb_sound; vmrefl|]. split; [intros x [H|[H|[]]]; discriminate|]. split; [vmrefl|]. split; [vm_compute; intros o [<-|[]]; now left|].
  vm_compute. intros v. split; intros H; repeat destruct H as [H|H]; try discriminate; exact H.
Qed.
(** An exclusive owner is necessary: the last call of unlock_shared() (number 3) returned, but the other reader's call
    (number 2), made before it, is still in front of its compare-exchange. *)
Example shared_last : exists s tr, run r_step r_init [RTryS; RStep 0 false; RStep 0 false; RTryS; RStep 1 false; RStep 1 false;
    RUnlock false; RStep 2 false; RUnlock false; RStep 3 false; RStep 3 false] = Running s tr /\ owners_unlock tr /\
  nth_error (r_act s) 3 = Some REnd /\ nth_error (r_act s) 2 = Some (SUnl1 (RV MLocked 2)) /\ incl (started_ops tr) (acquired tr).
Proof. witness. split; [apply ownb_sound; vmrefl|]. split; [vmrefl|]. split; [vmrefl|]. vm_compute. intros o []. Qed.
