(** C86: sequenced_event with cancellation under the C++ memory model. *)
From Coq Require Import List Arith Bool Lia.
From Verif Require Import Lts M_Wait S_Wait M_WaitHB S_WaitHB M_WaitLocks M_Recurring M_SequencedHB S_SequencedHB P_SequencedHB.
Import ListNotations.

Notation SC := sequenced_c.
(** The memory orders of the code: line 13 is acq_rel, lines 18, 23 and 28 are acquire *)
Notation qrun eager ls := (run (q_step eager true true true) q_init ls).

(** ** Visibility *)
(** What was done before the calls of raise() that made the numbers up to x happens before a wait, completed in whichever way, that returns x ... *)
Theorem C86_sequenced_sees : forall eager ls s tr, qrun eager ls = Running s tr -> q_sees tr.
Proof. exact (fun eager ls s tr H => proj1 (q_sees_of eager true true true ls s tr eq_refl H)). Qed.
Print Assumptions C86_sequenced_sees.
(** ... and before the return of a call of next_sequence() that returns more than x. *)
Theorem C86_sequenced_next : forall eager ls s tr, qrun eager ls = Running s tr -> q_next_sees tr.
Proof. exact (fun eager ls s tr H => proj2 (q_sees_of eager true true true ls s tr eq_refl H)). Qed.
Print Assumptions C86_sequenced_next.
(** A wait also sees what was done before the calls that complete it, in particular cancel(), and before the calls that locked the mutex before it. *)
Theorem C86_sequenced_calls : forall eager ls s tr, qrun eager ls = Running s tr -> calls_visible (hapi tr) /\ earlier_visible (hapi tr).
Proof. exact (fun eager ls s tr H => q_calls eager true true true ls s tr H). Qed.
Print Assumptions C86_sequenced_calls.

(** ** The number *)
(** A wait for t returns a number that was reached.  It is at least t although loads may return old numbers; it is greater if the wait completes
    in start(), and it counts the raise() that wakes it. *)
Theorem C86_sequenced_value : forall eager ls s t1 o r x v t2 t, qrun eager ls = Running s (t1 ++ QEDone o r x v :: t2) -> q_waits o t t1 ->
  t <= x /\ x <= q_raises t1 /\ (r = CondFailed -> t < x) /\ forall j os, In (QELock j os) t1 -> In o os -> j <= x.
Proof. exact (fun eager ls s t1 o r x v t2 t H => q_value eager true true true ls s t1 o r x v t2 t H). Qed.
Print Assumptions C86_sequenced_value.

(** ** No lost wake-up *)
(** When no call is running, a wait for a number that was passed has completed. *)
Theorem C86_sequenced_live : forall eager ls s tr o t, qrun eager ls = Running s tr -> q_quiet s -> q_waits o t tr -> t < q_raises tr -> notified o (qapi tr) = 1.
Proof. exact (fun eager ls s tr o t H => q_live eager true true true ls s tr o t H). Qed.
Print Assumptions C86_sequenced_live.
(** The second half of raise() is never blocked. *)
Theorem C86_sequenced_raise : forall ls s tr k y, qrun false ls = Running s tr -> nth_error (q_rs s) k = Some (Some y) ->
  exists s' es, q_step false true true true s (QLock k) = Next s' es.
Proof. exact (q_lock_enabled true true true). Qed.
Print Assumptions C86_sequenced_raise.

(** ** Safety *)
(** There is no data race, no use after free, and the assertion of line 24 holds, provided that a client destroys an operation after all calls on it have returned.
    For other clients the assertion holds too, and the other failures need a cancellation. *)
Theorem C86_sequenced_safe : forall ls f tr, qrun false ls <> Failed f tr.
Proof. exact (fun ls f tr H => match q_failures false true true true ls f tr H with conj E _ => diff_false_true E end). Qed.
Print Assumptions C86_sequenced_safe.
Theorem C86_sequenced_eager : forall ls f tr, qrun true ls = Failed f tr -> (f = UseAfterFree \/ f = DataRace) /\ exists o, destroyed_early o (hapi tr).
Proof. exact (fun ls f tr H => proj2 (q_failures true true true true ls f tr H)). Qed.
Print Assumptions C86_sequenced_eager.

(** ** The other guarantees *)
(** The waits are those of recurring_event: C01 to C05 apply to these executions, and each notification has a number. *)
Theorem C86_sequenced_functional : forall eager ls s tr, qrun eager ls = Running s tr ->
  (exists ls', run (step SC eager) (c_init SC) ls' = Running (h_s (q_h s)) (qapi tr)) /\
  forall o r, In (EDone (P := SC) o r) (qapi tr) <-> exists x v, In (QEDone o r x v) tr.
Proof. exact (fun eager ls s tr H => conj (q_functional eager true true true ls s tr H) (fun o r => q_results eager true true true ls s tr o r H)). Qed.
Print Assumptions C86_sequenced_functional.

(** ** Memory orders *)
(** raise() has made the number 1, but not yet raised the event; a wait for 0 reads the number. *)
Definition fast_ls : list qlabel := [QRaise []; QWait 0 None 0 [] 1; QPath 0 PathL 1; QNext [] 1].
Definition fast_tr : list qevent :=
  [QE (HCall KFree 0 []); QE (HE (EPrim (EUser (1 : UE seqc_user) : PE SC)) [0]); QERaise 1 [0]; QE (HE (EStart (P := SC) 0 None (0, 1)) [3; 2; 1]);
   QE (HE (EDone (P := SC) 0 CondFailed) [4; 3; 2; 1]); QEDone 0 CondFailed 1 [4; 3; 2; 1]; QENext 2 []].
Lemma fast_bad r_acq r_rel ld_acq : r_rel && ld_acq = false -> exists s, run (q_step false r_acq r_rel ld_acq) q_init fast_ls = Running s fast_tr /\ q_num s = 1.
Proof. intros H. destruct r_acq, r_rel, ld_acq; try discriminate H; witness; vmrefl. Qed.

(** Release by the fetch_add and acquire by the loads are both needed, although the mutex of the event also synchronizes; acquire by the fetch_add is not. *)
Theorem C86_sequenced_orders : forall r_acq r_rel ld_acq,
  (forall eager ls s tr, run (q_step eager r_acq r_rel ld_acq) q_init ls = Running s tr -> q_sees tr /\ q_next_sees tr) <-> r_rel && ld_acq = true.
Proof.
  intros r_acq r_rel ld_acq. split.
  - intros H. destruct (r_rel && ld_acq) eqn:E; [reflexivity|]. exfalso. destruct (fast_bad r_acq _ _ E) as (s & Hr & _). destruct (H _ _ _ _ Hr) as [H1 _].
    assert (Hi : In 0 [4; 3; 2; 1]); [|cbn in Hi; lia]. apply (H1 0 CondFailed 1 [4; 3; 2; 1] ltac:(cbn; tauto) 1 [0] (le_n 1) ltac:(cbn; tauto)). now left.
  - exact (fun E eager ls s tr Hr => q_sees_of eager r_acq r_rel ld_acq ls s tr E Hr).
Qed.
Print Assumptions C86_sequenced_orders.

(** ** Witnesses *)
Example C86_fast : exists s, qrun false fast_ls = Running s
  [QE (HCall KFree 0 []); QE (HE (EPrim (EUser (1 : UE seqc_user) : PE SC)) [0]); QERaise 1 [0]; QE (HE (EStart (P := SC) 0 None (0, 1)) [3; 2; 1]);
   QE (HE (EDone (P := SC) 0 CondFailed) [4; 3; 2; 1]); QEDone 0 CondFailed 1 [4; 3; 2; 1; 0]; QENext 2 [0]] /\ q_num s = 1.
Proof. witness. vmrefl. Qed.
(** The wait reads the old number after raise() has incremented it; it is queued, and the second half of raise() wakes it; it returns 1.  At the end no call is running. *)
Definition late_ls : list qlabel :=
  [QRaise []; QWait 0 (Some 0) 0 [] 0; QPath 0 PathL 0; QPath 0 PathL 0; QLock 0; QWakeNext 1; QPath 0 PathP 0; QPath 0 PathP 0; QPath 0 PathP 1].
Example C86_late : exists s tr, qrun false late_ls = Running s tr /\
  (exists t1 v, tr = t1 ++ [QEDone 0 Awaited 1 v] /\ In (QELock 1 [0]) t1 /\ In 0 v) /\ q_waits 0 0 tr /\ q_raises tr = 1 /\ notified 0 (qapi tr) = 1 /\ q_quiet s.
Proof.
  witness. split.
  { match goal with |- exists t1 v, ?tr = _ /\ _ => exists (removelast tr), (match last tr (QENext 0 []) with QEDone _ _ _ w => w | _ => [] end) end. vm_compute. tauto. }
  split; [exists (Some 0), 0; vm_compute; tauto|]. split; [vmrefl|]. split; [vmrefl|]. split; [split|].
  - intros [|o]; vm_compute; reflexivity.
  - vm_compute. intros lp [[<-|[<-|[]]]|[]]; reflexivity.
  - vm_compute. intros y [<-|[]]. reflexivity.
Qed.
(** The same wait cannot return 0: the raise() that wakes it happens before. *)
Example C86_late_old : qrun false (removelast late_ls ++ [QPath 0 PathP 0]) = Stuck.
Proof. vmrefl. Qed.
(** The wait is cancelled before the second half of raise(); it does not have to see the number. *)
Definition cancel_ls (i : nat) : list qlabel :=
  [QRaise []; QWait 0 (Some 0) 0 [] 0; QPath 0 PathL 0; QPath 0 PathL 0; QCancel 0 []; QCanNext 0; QPath 0 PathC 0; QPath 0 PathC 0; QPath 0 PathC i].
Example C86_cancelled : exists s tr, qrun false (cancel_ls 0) = Running s tr /\ In (EDone (P := SC) 0 Cancelled) (qapi tr) /\ q_raises tr = 1 /\ q_waits 0 0 tr.
Proof. witness. split; [vm_compute; tauto|]. split; [vmrefl|]. exists (Some 0), 0. vm_compute. tauto. Qed.
Example C86_cancelled_new : exists s tr, qrun false (cancel_ls 1) = Running s tr /\ exists v, last tr (QENext 0 []) = QEDone 0 Cancelled 1 v.
Proof. witness. eexists. vm_compute. reflexivity. Qed.
(** The caller of async_wait(1) knows of the first raise(); the number that it returns is not older. *)
Example C86_known : exists s tr, qrun false [QRaise []; QWait 0 None 1 [0] 1; QPath 0 PathL 1; QPath 0 PathL 1; QLock 0; QWakeNext 1; QPath 0 PathP 1; QPath 0 PathP 1] = Running s tr /\ q_waits 0 1 tr /\
  exists v, last tr (QENext 0 []) = QEDone 0 Awaited 1 v.
Proof. witness. split; [exists None, 1; vm_compute; tauto|]. eexists. vm_compute. reflexivity. Qed.
Example C86_unknown : qrun false [QRaise []; QWait 0 None 1 [] 1] = Stuck.
Proof. vmrefl. Qed.
(** A raise() in progress. *)
Example C86_half : exists s tr, qrun false [QRaise []] = Running s tr /\ nth_error (q_rs s) 0 = Some (Some (1, [0])).
Proof. witness. vmrefl. Qed.
(** A client that destroys a cancelled operation as soon as its receiver was notified. *)
Example C86_early : exists tr, qrun true [QWait 0 (Some 0) 0 [] 0; QPath 0 PathL 0; QPath 0 PathL 0; QRaise []; QLock 0; QWakeNext 1; QPath 0 PathP 0; QCancel 0 []; QCanNext 0; QPath 0 PathC 0; QPath 0 PathC 0;
  QPath 0 PathC 1; QDestroy 0; QPath 0 PathP 1] = Failed UseAfterFree tr.
Proof. eexists. vm_compute. reflexivity. Qed.
