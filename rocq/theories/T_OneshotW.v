(** C64 and C65: oneshot_primitive under the C++ memory model. *)
From Coq Require Import List Arith Bool Lia.
From Verif Require Import Lts M_Mutex M_Weak M_OneshotPrim M_OneshotW S_OneshotW P_OneshotW.
Import ListNotations.

(** The memory orders of the code: lines 54 and 83 are acq_rel, lines 75 and 84 are acquire *)
Definition code_step := q_step true true true true true true.

(** ** C64: what happens before raise() and start() happens before the completion of the wait *)
Theorem C64_oneshot_visible ls s tr : run code_step q_init ls = Running s tr -> sees_raise tr.
Proof. intros H. destruct (q_inv true ls s tr H) as (l & lr & J). exact (proj1 (qi_vis _ _ _ _ J)). Qed.
Print Assumptions C64_oneshot_visible.
Theorem C64_oneshot_start ls s tr : run code_step q_init ls = Running s tr -> sees_start tr.
Proof. intros H. destruct (q_inv true ls s tr H) as (l & lr & J). exact (proj2 (qi_vis _ _ _ _ J)). Qed.
Print Assumptions C64_oneshot_start.

(** raise() follows the list of a wait that was linked *)
Definition linked : list qlabel := [QStart 0 vbot; QStep 0 0 false; QStep 0 0 false; QRaise vbot; QStep 1 0 false].
Lemma linked_run x_acq x_rel c_acq c_rel l_acq f_acq : x_acq && c_rel = false ->
  exists tr, run (q_step x_acq x_rel c_acq c_rel l_acq f_acq) q_init linked = Failed DataRace tr.
Proof. intros H. destruct x_acq, x_rel, c_acq, c_rel, l_acq, f_acq; try discriminate H; witness. Qed.
(** start() after raise() *)
Definition after : list qlabel := [QRaise vbot; QStart 0 vbot; QStep 1 1 false; QStep 1 1 false].
Lemma after_run x_acq x_rel c_acq c_rel l_acq f_acq : x_rel && l_acq = false ->
  exists s, run (q_step x_acq x_rel c_acq c_rel l_acq f_acq) q_init after = Running s [QERaise 0; QEStart 0 1; QEDone 0 [1]] /\ q_acc s = 2.
Proof. intros H. destruct x_acq, x_rel, c_acq, c_rel, l_acq, f_acq; try discriminate H; witness; vmrefl. Qed.
(** raise() between the load of start() and its compare-exchange, or a load that reads the old value *)
Definition between : list qlabel := [QStart 0 vbot; QRaise vbot; QStep 0 0 false; QStep 0 1 false; QStep 0 1 false].
Lemma between_run x_acq x_rel c_acq c_rel l_acq :
  exists s, run (q_step x_acq x_rel c_acq c_rel l_acq false) q_init between = Running s [QEStart 0 0; QERaise 1; QEDone 0 [0]] /\ q_acc s = 2.
Proof. destruct x_acq, x_rel, c_acq, c_rel, l_acq; witness; vmrefl. Qed.

(** All memory orders but one are needed: without one of them the read of next_ by raise() is a data race or a wait does not see what happens before raise().  The
    exception is acquire by the successful compare-exchange, which continues the release sequences of the earlier ones. *)
Theorem C64_oneshot_orders x_acq x_rel c_acq c_rel l_acq f_acq :
  (forall ls, (forall tr, run (q_step x_acq x_rel c_acq c_rel l_acq f_acq) q_init ls <> Failed DataRace tr) /\
              forall s tr, run (q_step x_acq x_rel c_acq c_rel l_acq f_acq) q_init ls = Running s tr -> sees_raise tr /\ sees_start tr)
  <-> x_acq && x_rel && c_rel && l_acq && f_acq = true.
Proof.
  split.
  - intros H. destruct (x_acq && c_rel) eqn:E1.
    2: { destruct (linked_run x_acq x_rel c_acq c_rel l_acq f_acq E1) as (tr & Hr). destruct (proj1 (H linked) tr Hr). }
    destruct (x_rel && l_acq) eqn:E2.
    2: { destruct (after_run x_acq x_rel c_acq c_rel l_acq f_acq E2) as (s & Hr & _). destruct (proj2 (H after) _ _ Hr) as [Hv _].
         destruct (Hv [QERaise 0; QEStart 0 1] 0 [1] [] eq_refl) as (n & [A|[A|[]]] & [B|[]]); congruence. }
    destruct f_acq.
    2: { destruct (between_run x_acq x_rel c_acq c_rel l_acq) as (s & Hr & _). destruct (proj2 (H between) _ _ Hr) as [Hv _].
         destruct (Hv [QEStart 0 0; QERaise 1] 0 [0] [] eq_refl) as (n & [A|[A|[]]] & [B|[]]); congruence. }
    destruct x_acq, x_rel, c_rel, l_acq; try discriminate; reflexivity.
  - intros E ls. destruct x_acq, x_rel, c_rel, l_acq, f_acq; try discriminate E. split.
    + intros tr Hr. destruct (q_fail c_acq ls _ tr Hr). discriminate.
    + intros s tr Hr. destruct (q_inv c_acq ls s tr Hr) as (l & lr & J). exact (qi_vis _ _ _ _ J).
Qed.
Print Assumptions C64_oneshot_orders.

(** Two waits are linked, the first after its compare-exchange failed because of the second; a third one starts during raise() and reads old values twice. *)
Definition demo : list qlabel :=
  [QStart 0 vbot; QStep 0 0 false; QStart 1 vbot; QStep 1 0 false; QStep 1 0 true; QStep 1 0 false; QStep 0 1 false; QStep 0 1 false;
   QStart 2 vbot; QRaise vbot; QStep 2 1 false; QStep 2 2 false; QStep 3 0 false; QStep 3 0 false; QStep 2 3 false; QStep 2 3 false; QStep 3 0 false; QStep 3 0 false; QStep 3 0 false].
Example C64_demo : exists s tr, run code_step q_init demo = Running s tr /\ q_done tr = [0; 2; 1] /\ map fst (q_act s) = [QEnd; QEnd; QEnd; QEnd].
Proof. witness. split; vmrefl. Qed.

(** ** C65: oneshot_primitive works under the C++ memory model *)

(** Only a second call of raise() fails: raise() accesses neither operations that were notified nor such whose next_ is written by a concurrent start(). *)
Theorem C65_oneshot_safe ls f tr : run code_step q_init ls = Failed f tr -> f = AssertFailed /\ 2 <= q_raises tr.
Proof. exact (q_fail true ls f tr). Qed.
Print Assumptions C65_oneshot_safe.
Theorem C65_oneshot_once ls s tr : run code_step q_init ls = Running s tr -> NoDup (q_done tr).
Proof. intros H. destruct (q_inv true ls s tr H) as (l & lr & J). exact (proj1 (qi_done _ _ _ _ J)). Qed.
Print Assumptions C65_oneshot_once.
(** When raise() was called and all calls have returned, all waits have completed, although start() may link its operation after it read an old value. *)
Theorem C65_oneshot_complete ls s tr : run code_step q_init ls = Running s tr -> q_quiet s -> q_raises tr <> 0 -> forall o n, In (QEStart o n) tr -> In o (q_done tr).
Proof. exact (q_complete true ls s tr). Qed.
Print Assumptions C65_oneshot_complete.

(** state_ never takes a value twice, so that a compare-exchange that succeeds has read the value of the same message as the load before it (no ABA problem). *)
Theorem C65_oneshot_no_aba ls s tr : run code_step q_init ls = Running s tr -> NoDup (map fst (q_h s)).
Proof. exact (q_nodup true ls s tr). Qed.
Print Assumptions C65_oneshot_no_aba.

Example C65_misuse : exists tr, run code_step q_init [QRaise vbot; QRaise vbot] = Failed AssertFailed tr /\ q_raises tr = 2.
Proof. witness. vmrefl. Qed.
Example C65_demo : exists s tr, run code_step q_init demo = Running s tr /\ q_quiet s /\ q_raises tr = 1 /\ length tr = 7.
Proof.
  witness. split; [|split; vmrefl]. intros a v H. vm_compute in H. repeat (destruct H as [H|H]; [injection H as <- _; reflexivity|]). destruct H.
Qed.
