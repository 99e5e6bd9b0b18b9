(** Property theorems for the intrusive lists of cancellable waits: C81.  Every theorem quantifies over all schedules of any number of
    operations, cancellation events and threads, without any rule for the clients; [eager] clients destroy an operation in set_value. *)
From Coq Require Import List Arith Bool.
From Verif Require Import Lts M_Wait S_Wait P_Wait M_Queue M_Recurring M_WaitGroup M_Future M_PostAck P_Queue P_Recurring P_WaitGroup P_Future P_PostAck
  M_WaitLists S_WaitLists P_WaitLists.
Import ListNotations.

Notation lrun L eager ls := (run (lists_step _ L eager) (l_init0 _) ls).

(** ** queue *)
(** The checks of the lists never fail: no list operation touches a destroyed operation, no node is linked twice, only linked nodes are
    unlinked and no linked node is destroyed.  Every run is a run of the machine without lists, and conversely. *)
Theorem C81_queue : forall T eager ls, forget (lrun (queue_list T) eager ls) = run (step (queue_prim T) eager) (c_init (queue_prim T)) ls.
Proof. exact (fun T eager => lists_run _ _ eager (queue_tlaws T) (queue_list T) (fun ps o => iff_refl _)). Qed.
Print Assumptions C81_queue.

(** The hooks tell the truth and whoever was notified is in no list. *)
Theorem C81_queue_hooks : forall T eager ls h tr, lrun (queue_list T) eager ls = Running h tr -> forall o,
  (l_ev h o = true <-> in_event_list o (l_base h)) /\ (l_pr h o = true <-> in_wait_list (queue_list T) o (l_base h)) /\
  (notified o tr > 0 -> ~ in_event_list o (l_base h) /\ ~ in_wait_list (queue_list T) o (l_base h)).
Proof. exact (fun T eager ls h tr Hr o => lists_all _ _ eager (queue_tlaws T) (queue_list T) (fun ps o => iff_refl _) ls h tr o Hr). Qed.
Print Assumptions C81_queue_hooks.

(** ** recurring_event *)
(** The checks of the lists never fail: no list operation touches a destroyed operation, no node is linked twice, only linked nodes are
    unlinked and no linked node is destroyed.  Every run is a run of the machine without lists, and conversely. *)
Theorem C81_recurring_event : forall U eager ls, forget (lrun (recurring_list U) eager ls) = run (step (recurring_prim U) eager) (c_init (recurring_prim U)) ls.
Proof. exact (fun U eager => lists_run _ _ eager (recurring_tlaws U) (recurring_list U) (fun ps o => iff_refl _)). Qed.
Print Assumptions C81_recurring_event.

(** The hooks tell the truth and whoever was notified is in no list. *)
Theorem C81_recurring_event_hooks : forall U eager ls h tr, lrun (recurring_list U) eager ls = Running h tr -> forall o,
  (l_ev h o = true <-> in_event_list o (l_base h)) /\ (l_pr h o = true <-> in_wait_list (recurring_list U) o (l_base h)) /\
  (notified o tr > 0 -> ~ in_event_list o (l_base h) /\ ~ in_wait_list (recurring_list U) o (l_base h)).
Proof. exact (fun U eager ls h tr Hr o => lists_all _ _ eager (recurring_tlaws U) (recurring_list U) (fun ps o => iff_refl _) ls h tr o Hr). Qed.
Print Assumptions C81_recurring_event_hooks.

(** ** wait_group *)
(** The checks of the lists never fail: no list operation touches a destroyed operation, no node is linked twice, only linked nodes are
    unlinked and no linked node is destroyed.  Every run is a run of the machine without lists, and conversely. *)
Theorem C81_wait_group : forall V n0 eager ls, forget (lrun (wait_group_list V n0) eager ls) = run (step (wait_group V n0) eager) (c_init (wait_group V n0)) ls.
Proof. exact (fun V n0 eager => lists_run _ _ eager (wait_group_tlaws V n0) (wait_group_list V n0) (fun ps o => iff_refl _)). Qed.
Print Assumptions C81_wait_group.

(** The hooks tell the truth and whoever was notified is in no list. *)
Theorem C81_wait_group_hooks : forall V n0 eager ls h tr, lrun (wait_group_list V n0) eager ls = Running h tr -> forall o,
  (l_ev h o = true <-> in_event_list o (l_base h)) /\ (l_pr h o = true <-> in_wait_list (wait_group_list V n0) o (l_base h)) /\
  (notified o tr > 0 -> ~ in_event_list o (l_base h) /\ ~ in_wait_list (wait_group_list V n0) o (l_base h)).
Proof. exact (fun V n0 eager ls h tr Hr o => lists_all _ _ eager (wait_group_tlaws V n0) (wait_group_list V n0) (fun ps o => iff_refl _) ls h tr o Hr). Qed.
Print Assumptions C81_wait_group_hooks.

(** ** future *)
(** The checks of the lists never fail: no list operation touches a destroyed operation, no node is linked twice, only linked nodes are
    unlinked and no linked node is destroyed.  Every run is a run of the machine without lists, and conversely. *)
Theorem C81_future : forall T eager ls, forget (lrun (future_list T) eager ls) = run (step (future_prim T) eager) (c_init (future_prim T)) ls.
Proof. exact (fun T eager => lists_run _ _ eager (future_tlaws T) (future_list T) (fun ps o => iff_refl _)). Qed.
Print Assumptions C81_future.

(** The hooks tell the truth and whoever was notified is in no list. *)
Theorem C81_future_hooks : forall T eager ls h tr, lrun (future_list T) eager ls = Running h tr -> forall o,
  (l_ev h o = true <-> in_event_list o (l_base h)) /\ (l_pr h o = true <-> in_wait_list (future_list T) o (l_base h)) /\
  (notified o tr > 0 -> ~ in_event_list o (l_base h) /\ ~ in_wait_list (future_list T) o (l_base h)).
Proof. exact (fun T eager ls h tr Hr o => lists_all _ _ eager (future_tlaws T) (future_list T) (fun ps o => iff_refl _) ls h tr o Hr). Qed.
Print Assumptions C81_future_hooks.

(** ** post_ack *)
(** The checks of the lists never fail: no list operation touches a destroyed operation, no node is linked twice, only linked nodes are
    unlinked and no linked node is destroyed.  Every run is a run of the machine without lists, and conversely. *)
Theorem C81_post_ack : forall T eager ls, forget (lrun (post_ack_list T) eager ls) = run (step (post_ack T) eager) (c_init (post_ack T)) ls.
Proof. exact (fun T eager => lists_run _ _ eager (post_ack_tlaws T) (post_ack_list T) (fun ps o => iff_refl _)). Qed.
Print Assumptions C81_post_ack.

(** The hooks tell the truth and whoever was notified is in no list. *)
Theorem C81_post_ack_hooks : forall T eager ls h tr, lrun (post_ack_list T) eager ls = Running h tr -> forall o,
  (l_ev h o = true <-> in_event_list o (l_base h)) /\ (l_pr h o = true <-> in_wait_list (post_ack_list T) o (l_base h)) /\
  (notified o tr > 0 -> ~ in_event_list o (l_base h) /\ ~ in_wait_list (post_ack_list T) o (l_base h)).
Proof. exact (fun T eager ls h tr Hr o => lists_all _ _ eager (post_ack_tlaws T) (post_ack_list T) (fun ps o => iff_refl _) ls h tr o Hr). Qed.
Print Assumptions C81_post_ack_hooks.

(** ** Witnesses *)
Notation QP := (queue_prim nat).
Notation QL := (queue_list nat).

(** Gets 0 and 1 wait with the token of event 7; both are linked in both lists.  put() takes get 0, cancel() takes both callbacks; after the
    put() has completed get 0, its resolver is linked in the local list of cancel(), and get 1 is linked in both lists. *)
Definition gets : list (label QP) :=
  [LStart (P := QP) 0 (Some 7) tt; LStart (P := QP) 1 (Some 7) tt; LPath 0 PathL; LPath 0 PathL; LPath 1 PathL; LPath 1 PathL].
Example C81_linked : exists h tr, lrun QL true gets = Running h tr /\ map (l_ev h) [0; 1; 2] = [true; true; false] /\
  map (l_pr h) [0; 1; 2] = [true; true; false].
Proof. witness. split; vmrefl. Qed.
Definition wakes : list (label QP) := gets ++ [LPrim (QPut 5 : PL QP); LCancel 7; LWakeNext 0; LPath 0 PathP; LPath 0 PathP].
Example C81_taken : exists h tr, lrun QL true wakes = Running h tr /\ map (l_ev h) [0; 1; 2] = [true; true; false] /\
  map (l_pr h) [0; 1; 2] = [false; true; false].
Proof. witness. split; vmrefl. Qed.
(** the rest of that run: both are notified, get 0 is destroyed at once *)
Definition rest : list (label QP) :=
  [LCanNext 0; LPath 0 PathC; LPath 0 PathC; LPath 0 PathC; LDestroy 0; LCanNext 0; LPath 1 PathC; LPath 1 PathC; LPath 1 PathC].
Example C81_notified : exists h tr, lrun QL true (wakes ++ rest) = Running h tr /\ notified 0 tr = 1 /\ notified 1 tr = 1 /\
  map (l_ev h) [0; 1; 2] = [false; false; false] /\ map (l_pr h) [0; 1; 2] = [false; false; false].
Proof. witness. repeat split; vmrefl. Qed.

(** With a wait_group the woken operations stay linked, in the local list of done(). *)
Notation GP := (wait_group nat 1).
Example C81_local : exists h tr, lrun (wait_group_list nat 1) true
    [LStart (P := GP) 0 None tt; LStart (P := GP) 1 None tt; LPrim (WDone : PL GP); LPrim (WStep 0 : PL GP); LPrim (WStep 0 : PL GP); LWakeNext 2]
  = Running h tr /\ map (l_pr h) [0; 1] = [false; true] /\ w_q (c_prim (l_base h)) = [].
Proof. witness. split; vmrefl. Qed.

(** The checks are real: a list with a destroyed node, a node that is linked already, one that is not linked. *)
Definition dead0 : cst QP :=
  St (P := QP) (Q [] [0] (fun _ => None) : PS QP) (upd (fun _ => op_init QP) 0 (set_dead (op_init QP))) (fun _ => ev_init) [] [].
Example C81_check_dead : lists_step QP QL true (LS dead0 (fun _ => false) (upd (fun _ => false) 0 true)) (LStart (P := QP) 1 None tt)
  = Fail UseAfterFree [EStart (P := QP) 1 None tt].
Proof. vmrefl. Qed.
Example C81_check_twice : lists_step QP QL true (LS (c_init QP) (fun _ => false) (upd (fun _ => false) 1 true)) (LStart (P := QP) 1 None tt)
  = Fail AssertFailed [EStart (P := QP) 1 None tt].
Proof. vmrefl. Qed.
Example C81_check_unlinked : exists s tr, run (step QP true) (c_init QP) gets = Running s tr /\
  lists_step QP QL true (LS s (fun _ => true) (fun _ => false)) (LPrim (QPut 5 : PL QP)) = Fail AssertFailed [EPrim (EPut 5 : PE QP)].
Proof. witness. vmrefl. Qed.
