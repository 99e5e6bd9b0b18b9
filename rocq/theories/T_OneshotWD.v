(** C95: when a oneshot_primitive may be destroyed under the C++ memory model. *)
From Coq Require Import List Arith Bool Lia.
From Verif Require Import Lts M_Mutex M_Weak M_OneshotPrim M_OneshotW S_OneshotW M_WaitGroupWD M_OneshotWD S_OneshotWD P_OneshotWD.
Import ListNotations.

(** The memory orders of the code (lines 54, 75, 83, 84) *)
Notation jcode := (j_step true true true true true true).

(** A client may destroy a oneshot_primitive once every wait has been started (start() returned or the wait was notified) and raise() was called, if it knows
    that, for example by the notification of a wait.  It need not wait for raise() to return, nor for the notification of other waits: all accesses to the
    primitive happen before the destruction and nobody accesses it afterwards.  The only failure is the assertion of a second raise(). *)
Theorem C95_oneshot : forall ls f tr, run jcode j_init ls = Failed f tr -> f = AssertFailed /\ 2 <= q_raises (qev tr).
Proof. exact (j_fail true). Qed.
Print Assumptions C95_oneshot.

(** What such a client relies on: the accesses of raise() and of the start() of a wait happen before the notification of that wait. *)
Theorem C95_oneshot_over : forall ls z tr, run jcode j_init ls = Running z tr -> j_over z /\ j_recorded z tr.
Proof. intros ls z tr H. split; [exact (j_over_thm true ls z tr H)|exact (j_recorded_thm true true true true true true ls z tr H)]. Qed.
Print Assumptions C95_oneshot_over.

(** The destruction does not disturb the waits that raise() has still to notify. *)
Theorem C95_oneshot_waits : forall ls z tr, run jcode j_init ls = Running z tr -> sees_raise (qev tr) /\ sees_start (qev tr).
Proof. exact (j_vis true). Qed.
Print Assumptions C95_oneshot_waits.

(** *** Witnesses *)
(** Two waits are linked (accesses 0 to 4; the compare-exchange of the second one fails once), raise() makes the access 5 and notifies wait 1. *)
Definition jw : list jlabel :=
  map JStep [QStart 0 vbot; QStart 1 vbot; QStep 0 0 false; QStep 0 0 false; QStep 1 0 false; QStep 1 1 false; QStep 1 1 false; QRaise vbot; QStep 2 0 false; QStep 2 0 false].
(** The receiver of wait 1 destroys the primitive; raise() goes on with wait 0. *)
Example C95_destroy : exists z tr, run jcode j_init (jw ++ [JDel [0; 1; 2; 3; 4; 5]; JStep (QStep 2 0 false); JStep (QStep 2 0 false); JStep (QStep 2 0 false)]) = Running z tr /\
  tr = [JE (QEStart 0 0); JE (QEStart 1 1); JE (QERaise 2); JE (QEDone 1 [2; 0; 1; 0; 0]); JEDel; JE (QEDone 0 [2; 0; 1; 0; 0])] /\ j_who (z) = [RWait 0; RWait 0; RWait 1; RWait 1; RWait 1; RRaise].
Proof. unfold jw. witness. split; vmrefl. Qed.
(** A thread that does not know of the notification cannot destroy the primitive, and nobody can while a start() is in flight. *)
Example C95_not_yet : run jcode j_init (jw ++ [JDel [0; 1; 2; 3; 4]]) = Stuck /\ run jcode j_init (jw ++ [JStep (QStart 2 vbot); JDel [0; 1; 2; 3; 4; 5]]) = Stuck.
Proof. unfold jw. split; vmrefl. Qed.
(** Without waits, the caller of raise() may destroy it. *)
Example C95_raiser : exists z tr, run jcode j_init [JStep (QRaise vbot); JDel [0]] = Running z tr /\ tr = [JE (QERaise 0); JEDel].
Proof. witness. vmrefl. Qed.
(** start() after raise(), and raise() between the load and the compare-exchange of start() *)
Definition jf : list jlabel := map JStep [QRaise vbot; QStart 0 vbot; QStep 1 1 false; QStep 1 1 false].
Definition jb : list jlabel := map JStep [QStart 0 vbot; QRaise vbot; QStep 0 0 false; QStep 0 1 false; QStep 0 1 false].
Example C95_fast : exists z tr, run jcode j_init (jf ++ [JDel [0; 1]; JStep (QStep 0 0 false)]) = Running z tr /\ j_not z = [(0, [1; 0])] /\ j_dead z = true.
Proof. unfold jf. witness. split; vmrefl. Qed.
Example C95_between : exists z tr, run jcode j_init (jb ++ [JDel [0; 1; 2]; JStep (QStep 1 0 false)]) = Running z tr /\ j_not z = [(0, [2; 1; 0])] /\ j_dead z = true.
Proof. unfold jb. witness. split; vmrefl. Qed.
Example C95_twice : exists tr, run jcode j_init [JStep (QRaise vbot); JStep (QRaise vbot)] = Failed AssertFailed tr.
Proof. witness. Qed.

(** All memory orders but the acquire of the successful compare-exchange are needed. *)
Lemma race1 x_acq x_rel c_acq c_rel l_acq f_acq : x_acq && c_rel = false -> exists tr, run (j_step x_acq x_rel c_acq c_rel l_acq f_acq) j_init
  (map JStep [QStart 0 vbot; QStep 0 0 false; QStep 0 0 false; QRaise vbot; QStep 1 0 false]) = Failed DataRace tr.
Proof. intros H. destruct x_acq, x_rel, c_acq, c_rel, l_acq, f_acq; try discriminate H; eexists; vm_compute; reflexivity. Qed.
Lemma race2 x_acq x_rel c_acq c_rel l_acq f_acq : x_rel && l_acq = false -> exists tr, run (j_step x_acq x_rel c_acq c_rel l_acq f_acq) j_init (jf ++ [JDel [1]]) = Failed DataRace tr.
Proof. unfold jf. intros H. destruct x_acq, x_rel, c_acq, c_rel, l_acq, f_acq; try discriminate H; eexists; vm_compute; reflexivity. Qed.
Lemma race3 x_acq x_rel c_acq c_rel l_acq : exists tr, run (j_step x_acq x_rel c_acq c_rel l_acq false) j_init (jb ++ [JDel [1; 2]]) = Failed DataRace tr.
Proof. unfold jb. destruct x_acq, x_rel, c_acq, c_rel, l_acq; eexists; vm_compute; reflexivity. Qed.
Theorem C95_oneshot_orders : forall x_acq x_rel c_acq c_rel l_acq f_acq,
  (forall ls f tr, run (j_step x_acq x_rel c_acq c_rel l_acq f_acq) j_init ls = Failed f tr -> f = AssertFailed /\ 2 <= q_raises (qev tr))
  <-> x_acq && x_rel && c_rel && l_acq && f_acq = true.
Proof.
  intros x_acq x_rel c_acq c_rel l_acq f_acq. split.
  - intros H. destruct (x_acq && c_rel) eqn:E1; [|destruct (race1 x_acq x_rel c_acq c_rel l_acq f_acq E1) as (tr & Hr); destruct (H _ _ _ Hr); discriminate].
    destruct (x_rel && l_acq) eqn:E2; [|destruct (race2 x_acq x_rel c_acq c_rel l_acq f_acq E2) as (tr & Hr); destruct (H _ _ _ Hr); discriminate].
    destruct f_acq; [|destruct (race3 x_acq x_rel c_acq c_rel l_acq) as (tr & Hr); destruct (H _ _ _ Hr); discriminate].
    destruct x_acq, x_rel, c_rel, l_acq; try discriminate; reflexivity.
  - intros H. destruct x_acq, x_rel, c_rel, l_acq, f_acq; try discriminate H. exact (j_fail c_acq).
Qed.
Print Assumptions C95_oneshot_orders.
