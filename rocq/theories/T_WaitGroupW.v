(** C58 and C59: wait_group under the C++ memory model. *)
From Coq Require Import List Arith Bool Lia.
From Verif Require Import Lts M_Weak M_WaitGroupW S_WaitGroupW P_WaitGroupW.
Import ListNotations.

(** The memory orders of the code (lines 55, 63, 90) *)
Definition code_step := g_step true true true true.

(** ** C58: what happens before done() happens before the end of the waits for it *)
Theorem C58_wait_group_visible n0 ls s tr : run code_step (g_init n0) ls = Running s tr -> sees_units tr.
Proof. intros H. exact (gi_vis _ _ (g_inv n0 true true ls s tr H)). Qed.
Print Assumptions C58_wait_group_visible.

(** The same spelled out: the last event of a run is the notification of a wait. *)
Theorem C58_wait_group_notified n0 ls s t o before known u :
  run code_step (g_init n0) ls = Running s (t ++ [GENotify o before]) -> In (GEWait o known) t -> In u known -> exists n, In (GEDone u n) t /\ In n before.
Proof. intros H. exact (C58_wait_group_visible n0 ls s _ H t o before [] eq_refl known u). Qed.
Print Assumptions C58_wait_group_notified.

(** Two threads: the second done() reaches zero and notifies; what the first thread did happens before that. *)
Definition two_threads : list glabel := [GLWait 0 vbot 0; GLDone 0 vbot; GLStep 0 0; GLStep 0 0; GLDone 1 vbot; GLStep 1 1; GLStep 1 0; GLWake 0].
Example C58_two_threads : exists s, run code_step (g_init 2) two_threads = Running s [GEWait 0 [0; 1]; GEDone 0 0; GEDone 1 1; GENotify 0 [1; 0]] /\ g_newest s = 0.
Proof. witness. vmrefl. Qed.
(** Old messages are read: the first done() takes the lock because it reads 1 instead of 2, the second one fails to exchange 2, the wait 2 reads 0 although
    another thread has added a unit already. *)
Definition stale : list glabel :=
  [GLAdd 1 vbot; GLDone 0 vbot; GLStep 0 0; GLStep 0 0; GLWait 0 (V 1 []) 2; GLDone 1 (V 1 []); GLStep 1 1; GLStep 1 2; GLStep 1 0;
   GLWait 1 vbot 3; GLAdd 1 vbot; GLWait 2 vbot 3; GLWait 3 (V 4 []) 4; GLWake 0].
Example C58_stale : exists s, run code_step (g_init 1) stale =
  Running s [GEAdd [1]; GEDone 0 0; GEWait 0 [0; 1]; GEDone 1 1; GEWait 1 [0]; GENotify 1 [1; 0; 0]; GEAdd [2]; GEWait 2 [0]; GENotify 2 [1; 0; 0];
             GEWait 3 [0; 1; 2]; GENotify 0 [1; 0; 0]] /\ g_newest s = 1.
Proof. witness. vmrefl. Qed.

(** Both orders of the decrements of done() are needed; those of add() do not matter. *)
Lemma not_seen d_acq d_rel a_acq a_rel : d_acq && d_rel = false ->
  exists s, run (g_step d_acq d_rel a_acq a_rel) (g_init 2) two_threads = Running s [GEWait 0 [0; 1]; GEDone 0 0; GEDone 1 1; GENotify 0 [1]] /\ g_newest s = 0.
Proof. intros H. destruct d_acq, d_rel; try discriminate H; destruct a_acq, a_rel; witness; vmrefl. Qed.
Theorem C58_wait_group_orders d_acq d_rel a_acq a_rel :
  (forall n0 ls s tr, run (g_step d_acq d_rel a_acq a_rel) (g_init n0) ls = Running s tr -> sees_units tr) <-> d_acq && d_rel = true.
Proof.
  split.
  - intros H. destruct (d_acq && d_rel) eqn:Ho; [reflexivity|]. exfalso. destruct (not_seen _ _ a_acq a_rel Ho) as (s & Hs & _).
    destruct (H 2 two_threads s _ Hs [GEWait 0 [0; 1]; GEDone 0 0; GEDone 1 1] 0 [1] [] eq_refl [0; 1] 0) as (n & Hn & Hi); [simpl; auto|simpl; auto|].
    simpl in Hn, Hi. intuition congruence.
  - intros H n0 ls s tr Hr. apply andb_true_iff in H as [-> ->]. exact (gi_vis _ _ (g_inv n0 a_acq a_rel ls s tr Hr)).
Qed.
Print Assumptions C58_wait_group_orders.

(** ** C59: the wait group works under the C++ memory model *)
(** The assertion of done() holds, the counter does not underflow, and no operation is notified that was not queued. *)
Theorem C59_wait_group_safe n0 ls f tr : run code_step (g_init n0) ls <> Failed f tr.
Proof. exact (g_safe n0 true true ls f tr). Qed.
Print Assumptions C59_wait_group_safe.

(** A wait is notified at most once, and exactly once if done() was called for every unit and all calls of the library returned. *)
Theorem C59_wait_group_once n0 ls s tr o : run code_step (g_init n0) ls = Running s tr -> notified o tr <= 1.
Proof. exact (g_once n0 true true ls s tr o). Qed.
Print Assumptions C59_wait_group_once.
Theorem C59_wait_group_live n0 ls s tr o known :
  run code_step (g_init n0) ls = Running s tr -> g_quiet s -> all_done n0 tr -> In (GEWait o known) tr -> notified o tr = 1.
Proof. exact (g_live n0 true true ls s tr o known). Qed.
Print Assumptions C59_wait_group_live.

Example C59_two_threads : exists s tr, run code_step (g_init 2) two_threads = Running s tr /\ g_quiet s /\ all_done 2 tr /\ In (GEWait 0 [0; 1]) tr /\ notified 0 tr = 1.
Proof.
  do 2 eexists. split; [vm_compute; reflexivity|]. split; [|split; [|split; [simpl; auto|reflexivity]]].
  - split; [intros u pc v [E|[E|[]]]|intros os v [E|[]]]; injection E; congruence.
  - intros u [H|(us & H & Hu)].
    + destruct u as [|[|u]]; [exists 0|exists 1|lia]; simpl; auto.
    + simpl in H. intuition discriminate.
Qed.
