(** Property theorem for mutex under the C++ memory model: C51. *)
From Coq Require Import List Arith Bool Lia.
From Verif Require Import Lts M_Mutex S_Mutex M_Weak M_MutexW S_MutexW P_MutexW.
Import ListNotations.

(** ** C51: the mutex orders the accesses of its owners *)
(** Every access by an owner happens after all accesses by the owners before it, however they acquired the mutex. *)
Theorem C51_mutex_visibility : forall ls s tr, run x_step x_init ls = Running s tr -> race_free tr.
Proof. exact mutexw_race_free. Qed.
Print Assumptions C51_mutex_visibility.

(** Stale values of st_ do not break mutual exclusion ... *)
Theorem C51_mutex_exclusive : forall ls s tr, run x_step x_init ls = Running s tr -> acqs true (api tr) <= unls true (api tr) + 1.
Proof. exact mutexw_exclusive. Qed.
Print Assumptions C51_mutex_exclusive.

(** ... or an assertion, and the nodes of waiters_ are accessed only by threads that know about their construction. *)
Theorem C51_mutex_asserts : forall ls f tr, run x_step x_init ls <> Failed f tr.
Proof. exact mutexw_safe. Qed.
Print Assumptions C51_mutex_asserts.

(** A thread without knowledge of the first owner acquires by the hand-off, and another one by try_lock() later; both see
    the accesses before.  The second thread also experiences a spurious failure of its compare-exchange. *)
Example C51_example : exists s, run x_step x_init
  [XTry vbot 0; XAccess 0; XStart 1 vbot; XStep 0 1 false; XStep 0 1 false; XStep 0 1 true; XStep 0 1 false;
   XUnlock 0; XStep 1 2 false; XStep 1 0 false; XStep 1 0 false; XAccess 0; XUnlock 0; XStep 2 3 false; XStep 2 3 false; XTry vbot 4; XAccess 0] =
  Running s [EL (ETry true true); EAcc 0 []; EL (EStart 1 true); EL (ESusp 1); EL (EUnlock true); EL (EHand 1); EL (EAcq 1 true); EAcc 1 [0];
             EL (EUnlock true); EL (ETry true true); EAcc 2 [1; 0]] /\ naccs [EAcc 0 []; EAcc 1 [0]] = 2.
Proof. witness. reflexivity. Qed.
