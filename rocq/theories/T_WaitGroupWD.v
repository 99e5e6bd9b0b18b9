(** C94: when a wait_group may be destroyed under the C++ memory model. *)
From Coq Require Import List Arith Bool Lia.
From Verif Require Import Lts M_Weak M_WaitGroupW S_WaitGroupW M_WaitGroupWD S_WaitGroupWD P_WaitGroupWD.
Import ListNotations.

(** The memory orders of the code (lines 55, 63, 90) *)
Notation zcode := (z_step true true true true).

(** A client may destroy a wait_group as soon as a wait was notified whose start() all calls of add() happen before, if it knows that the other waits have
    been started (their start() returned, or they were notified).  It need not wait for the calls of done(): all accesses to the group happen before the destruction, and nobody accesses it
    afterwards, although the counter may be read and decremented without the lock by threads that the destroying thread never synchronized with. *)
Theorem C94_wait_group : forall n0 ls f tr, run zcode (z_init n0) ls <> Failed f tr.
Proof. exact (fun n0 => z_safe n0 true true). Qed.
Print Assumptions C94_wait_group.

(** What such a client relies on: the accesses of done() for the units that a wait knows, and of the start() of that wait, happen before the notification of the wait, and
    these calls of done() do not access the group any more. *)
Theorem C94_wait_group_over : forall n0 ls z tr, run zcode (z_init n0) ls = Running z tr -> over z /\ past z /\ recorded z tr.
Proof.
  intros n0 ls z tr H. destruct (z_over n0 true true ls z tr H) as [H1 H2]. split; [exact H1|]. split; [exact H2|]. exact (z_recorded n0 true true true true ls z tr H).
Qed.
Print Assumptions C94_wait_group_over.

(** The destruction does not take a notification away: a wait is notified at most once, and exactly once if done() was called for every unit and all calls of the library returned. *)
Theorem C94_wait_group_once : forall n0 ls z tr o, run zcode (z_init n0) ls = Running z tr -> notified o (gev tr) <= 1.
Proof. exact (fun n0 => z_once n0 true true). Qed.
Print Assumptions C94_wait_group_once.
Theorem C94_wait_group_live : forall n0 ls z tr o known, run zcode (z_init n0) ls = Running z tr -> g_quiet (z_g z) -> all_done n0 (gev tr) -> In (GEWait o known) (gev tr) ->
  notified o (gev tr) = 1.
Proof. exact (fun n0 => z_live n0 true true). Qed.
Print Assumptions C94_wait_group_live.

(** *** Witnesses *)
(** Two units and two waits.  Thread A ends its unit without the lock (accesses 2, 3), thread B reaches zero (4, 5) and notifies wait 0. *)
Definition zw : list zlabel := map ZStep [GLWait 0 vbot 0; GLWait 1 vbot 0; GLDone 0 vbot; GLStep 0 0; GLStep 0 0; GLDone 1 vbot; GLStep 1 1; GLStep 1 0; GLWake 0].
(** The receiver of wait 0 destroys the group; the loop of B goes on with wait 1. *)
Example C94_destroy : exists z tr, run zcode (z_init 2) (zw ++ [ZDel [0; 1; 2; 3; 4; 5]; ZStep (GLWake 0)]) = Running z tr /\ z_dead z = true /\
  tr = map ZE [GEWait 0 [0; 1]; GEWait 1 [0; 1]; GEDone 0 0; GEDone 1 1; GENotify 0 [1; 0]] ++ [ZEDel; ZE (GENotify 1 [1; 0])].
Proof. unfold zw. witness. split; vmrefl. Qed.
(** The hypotheses of the last theorem hold at the end of this execution. *)
Example C94_live_case : exists z tr, run zcode (z_init 2) (zw ++ [ZDel [0; 1; 2; 3; 4; 5]; ZStep (GLWake 0)]) = Running z tr /\ z_dead z = true /\
  map (fun x => snd (fst x)) (g_dn (z_g z)) = [GEnd; GEnd] /\ map fst (g_wk (z_g z)) = [[]] /\ notified 1 (gev tr) = 1.
Proof. unfold zw. witness. repeat split; vmrefl. Qed.
Example C94_record : exists z tr, run zcode (z_init 2) zw = Running z tr /\ z_who z = [WWait 0; WWait 1; WDone 0; WDone 0; WDone 1; WDone 1] /\
  z_not z = [(0, [0; 1], [5; 4; 1; 0; 3; 2])].
Proof. unfold zw. witness. split; vmrefl. Qed.
(** It cannot be destroyed before that, nor by a thread that does not know of the notification. *)
Example C94_not_yet : run zcode (z_init 2) (firstn 8 zw ++ [ZDel [0; 1; 2; 3; 4; 5]]) = Stuck /\ run zcode (z_init 2) (zw ++ [ZDel [0; 1; 2; 3; 4]]) = Stuck.
Proof. unfold zw. split; vmrefl. Qed.
(** The call of add() has to happen before start(): a wait (with the fast path) that does not know of the last add() does not tell anything about the done() for that unit, which makes the accesses
    5 and 6, and is still to come here. *)
Example C94_add_unknown : exists z tr, run zcode (z_init 1) (map ZStep [GLDone 0 vbot; GLStep 0 0; GLStep 0 0; GLAdd 1 vbot; GLWait 0 vbot 1; GLDone 1 (V 2 [])]) = Running z tr /\
  z_not z = [(0, [0], [3; 1; 0])] /\ may_del z [0; 1; 2; 3] = false /\ gev tr = [GEDone 0 0; GEAdd [1]; GEWait 0 [0]; GENotify 0 [0]; GEDone 1 1].
Proof. witness. repeat split; vmrefl. Qed.
Example C94_add_known : exists z tr, run zcode (z_init 1)
    (map ZStep [GLDone 0 vbot; GLStep 0 0; GLStep 0 0; GLAdd 1 vbot; GLDone 1 (V 2 []); GLStep 1 2; GLStep 1 0; GLWait 0 (V 2 [TCall 2]) 3] ++ [ZDel [0; 1; 2; 3; 4; 5]]) = Running z tr /\
  z_dead z = true.
Proof. witness. vmrefl. Qed.

(** Both memory orders of the decrements are needed (those of add() are not). *)
Lemma race d_acq d_rel a_acq a_rel : d_acq && d_rel = false -> exists tr, run (z_step d_acq d_rel a_acq a_rel) (z_init 2) (zw ++ [ZDel [0; 1; 4; 5]]) = Failed DataRace tr.
Proof. unfold zw. intros H. destruct d_acq, d_rel; try discriminate H; destruct a_acq, a_rel; eexists; vm_compute; reflexivity. Qed.
Theorem C94_wait_group_orders : forall d_acq d_rel a_acq a_rel,
  (forall n0 ls f tr, run (z_step d_acq d_rel a_acq a_rel) (z_init n0) ls <> Failed f tr) <-> d_acq && d_rel = true.
Proof.
  intros d_acq d_rel a_acq a_rel. split.
  - intros H. destruct (d_acq && d_rel) eqn:E; [reflexivity|]. destruct (race _ _ a_acq a_rel E) as (tr & Hr). destruct (H _ _ _ _ Hr).
  - intros H n0. apply andb_true_iff in H as [-> ->]. exact (z_safe n0 a_acq a_rel).
Qed.
Print Assumptions C94_wait_group_orders.
