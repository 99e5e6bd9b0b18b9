(** Property theorems: the weak-memory models of mutex and oneshot_primitive show the behaviour of the interleaving models: C96. *)
From Coq Require Import List Arith Bool.
From Verif Require Import Lts M_Mutex S_Mutex M_Weak M_OneshotPrim S_OneshotPrim M_MutexW S_MutexW M_OneshotW S_OneshotW S_Robust P_Robust.
Import ListNotations.

(** ** mutex *)
(** The calls on a mutex, their results and the notifications under the C++ memory model are exactly those of the interleavings of the atomic accesses in which owners unlock. *)
Theorem C96_mutex_same tr :
  (exists ls s wtr, run x_step x_init ls = Running s wtr /\ api wtr = tr) <-> (exists ls t, run m_step m_init ls = Running t tr /\ owners_unlock tr).
Proof. exact (same_traces tr). Qed.
Print Assumptions C96_mutex_same.

(** The same for executions after which no call is in flight *)
Theorem C96_mutex_same_quiet tr :
  (exists ls s wtr, run x_step x_init ls = Running s wtr /\ api wtr = tr /\ x_quiet s) <-> (exists ls t, run m_step m_init ls = Running t tr /\ owners_unlock tr /\ m_quiet t).
Proof. exact (same_quiet_traces tr). Qed.
Print Assumptions C96_mutex_same_quiet.

(** Therefore the order of service of C24 ... *)
Theorem C96_mutex_fifo ls s tr : run x_step x_init ls = Running s tr -> exists waiting, susps (api tr) = served (api tr) ++ waiting.
Proof. exact (weak_fifo ls s tr). Qed.
Print Assumptions C96_mutex_fifo.

Theorem C96_mutex_try ls s tr t1 t2 : run x_step x_init ls = Running s tr -> api tr = t1 ++ ETry true true :: t2 -> incl (susps t1) (acquired t1).
Proof. exact (weak_try ls s tr t1 t2). Qed.
Print Assumptions C96_mutex_try.

Theorem C96_mutex_barge ls s tr t1 o o' x t2 : run x_step x_init ls = Running s tr -> api tr = t1 ++ EAcq o' x :: t2 -> suspended_first o o' t1 -> In o (acquired t1).
Proof. exact (weak_barge ls s tr t1 o o' x t2). Qed.
Print Assumptions C96_mutex_barge.

(** ... and the absence of lost wake-ups of C25 hold under the C++ memory model as well. *)
Theorem C96_mutex_idle ls s tr : run x_step x_init ls = Running s tr -> x_quiet s -> held true (api tr) = 0 -> incl (started_ops (api tr)) (acquired (api tr)).
Proof. exact (weak_idle ls s tr). Qed.
Print Assumptions C96_mutex_idle.

Theorem C96_mutex_pending ls s tr o : run x_step x_init ls = Running s tr -> x_quiet s -> In o (started_ops (api tr)) -> ~ In o (acquired (api tr)) ->
  In o (susps (api tr)) /\ held true (api tr) = 1.
Proof. exact (weak_pending ls s tr o). Qed.
Print Assumptions C96_mutex_pending.

(** ** oneshot_primitive *)
(** The events under the C++ memory model are those of an interleaving, also if the client calls raise() twice. *)
Theorem C96_oneshot_same ls s tr : run (q_step true true true true true true) q_init ls = Running s tr ->
  exists ls' t, run d_step d_init ls' = Running t (map sc_ev tr) /\ (q_quiet s -> d_quiet t).
Proof. exact (or_quiet true ls s tr). Qed.
Print Assumptions C96_oneshot_same.

Theorem C96_oneshot_fail ls f tr : run (q_step true true true true true true) q_init ls = Failed f tr -> exists ls', run d_step d_init ls' = Failed f (map sc_ev tr).
Proof. exact (or_fail true ls f tr). Qed.
Print Assumptions C96_oneshot_fail.

(** ** Witnesses *)
(** try_lock() fails because it reads an old message, although unlock() has returned; operations 0 and 1 suspend meanwhile after stale reads, and are served in order. *)
Definition stale : list xlabel :=
  [XTry vbot 0; XUnlock 0; XStep 0 1 false; XStep 0 1 false; XTry vbot 1; XTry vbot 2; XStart 0 vbot; XStart 1 vbot; XStep 1 1 false; XStep 1 1 false; XStep 1 3 false;
   XStep 2 1 false; XStep 2 4 false; XStep 2 4 false; XUnlock 0; XStep 3 4 false; XStep 3 0 false; XStep 3 0 false].
Example C96_stale : exists s tr, run x_step x_init stale = Running s tr /\
  api tr = [ETry true true; EUnlock true; ETry true false; ETry true true; EStart 0 true; EStart 1 true; ESusp 0; ESusp 1; EUnlock true; EHand 0; EAcq 0 true] /\ map fst (x_act s) = [AEnd; AEnd; AEnd; AEnd].
Proof. witness. split; vmrefl. Qed.
(** the interleaving with the same trace *)
Example C96_stale_sc : exists t, run m_step m_init
  [MTry; MUnlock; MTry; MStep 0 false; MStep 0 false; MTry; MStart 0; MStart 1; MStep 1 false; MStep 1 false; MStep 1 false;
   MStep 2 false; MStep 2 false; MStep 2 false; MUnlock; MStep 3 false; MStep 3 false; MStep 3 false] =
  Running t [ETry true true; EUnlock true; ETry true false; ETry true true; EStart 0 true; EStart 1 true; ESusp 0; ESusp 1; EUnlock true; EHand 0; EAcq 0 true] /\ True.
Proof. witness. exact I. Qed.
(** A wait reads old values, before and after raise(). *)
Example C96_oneshot_stale : exists s tr, run (q_step true true true true true true) q_init
  [QStart 0 vbot; QStart 1 vbot; QStep 0 0 false; QStep 0 0 false; QStep 1 0 false; QRaise vbot; QStep 1 1 false; QStep 2 0 false; QStep 2 0 false; QStep 1 2 false; QStep 1 2 false; QStep 2 0 false] = Running s tr /\
  map sc_ev tr = [VStart 0; VStart 1; VRaise; VDone 0; VDone 1] /\ map fst (q_act s) = [QEnd; QEnd; QEnd].
Proof. witness. split; vmrefl. Qed.
Example C96_oneshot_twice : exists tr, run (q_step true true true true true true) q_init [QRaise vbot; QRaise vbot] = Failed AssertFailed tr /\ map sc_ev tr = [VRaise; VRaise].
Proof. witness. vmrefl. Qed.
