(** Property theorems for the lifetime of cancellation events (C82) and of the primitives (C83).  Every theorem quantifies over all schedules of
    any number of operations, cancellation events and threads; [eager] clients destroy an operation in set_value. *)
From Coq Require Import List Arith Bool ZArith Lia.
From Verif Require Import Lts ListFacts M_Wait S_Wait P_Wait M_Queue M_Recurring M_WaitGroup M_Future M_PostAck P_Queue P_Recurring S_WaitGroup P_WaitGroup P_Future P_PostAck
  M_WaitLife S_WaitLife P_WaitLife.
Import ListNotations.

Notation frun L eager early ls := (run (life_step _ L eager early) (f_init _) ls).
Notation brun P eager ls := (run (step P eager) (c_init P) ls).

(** * C82: cancellation_event *)
(** ** queue *)
(** A cancellation_event may be destroyed once all waits with a token of it were notified and their start() and complete() have
    returned, even while calls of cancel() on it are still in their loop: its destructor does not assert, nobody touches it afterwards,
    and everything else happens as if it were still there. *)
Theorem C82_queue : forall T eager ls, frun (kept (queue_prim T)) eager false ls <> Stuck ->
  undeleted (frun (kept (queue_prim T)) eager false ls) = brun (queue_prim T) eager (steps_of ls).
Proof.
  exact (fun T eager ls Hs => life_same _ _ eager (queue_tlaws T) (kept (queue_prim T)) false (fun _ => True) (fun _ _ _ => I) (fun _ => False)
    (fun _ _ _ _ _ Hm => False_ind _ (diff_false_true Hm)) (fun _ _ _ _ _ H _ _ => False_ind _ H) (fun _ _ _ _ _ H _ => False_ind _ H) ls Hs I eq_refl).
Qed.
Print Assumptions C82_queue.

(** Destroyed earlier, as soon as the waits were notified, it can only be touched afterwards if cancel() was called on it. *)
Theorem C82_queue_early_partial : forall T eager ls f tr, frun (kept (queue_prim T)) eager true ls = Failed f tr ->
  brun (queue_prim T) eager (steps_of ls) = Failed f (waits_of tr) \/
  (f = UseAfterFree /\ exists o e, In (EDelEv e) tr /\ uses_event o e (waits_of tr) /\ In (ECancel e) (waits_of tr) /\ notified o (waits_of tr) = 1).
Proof.
  intros T eager ls f tr Hr.
  destruct (life_fail _ _ eager (queue_tlaws T) (kept (queue_prim T)) true (fun _ => True) (fun _ _ _ => I) (fun _ => False)
    (fun _ _ _ _ _ Hm => False_ind _ (diff_false_true Hm)) (fun _ _ _ _ _ H _ _ => False_ind _ H) (fun _ _ _ _ _ H _ => False_ind _ H) ls f tr Hr I) as [H|(_ & H1 & o & e & a & H2 & H3 & H4 & H5)].
  - left. exact H.
  - right. split; [exact H1|]. exists o, e. split; [exact H2|]. split; [exists a; exact H3|]. split; [exact H4|exact H5].
Qed.
Print Assumptions C82_queue_early_partial.

(** ** recurring_event *)
(** A cancellation_event may be destroyed once all waits with a token of it were notified and their start() and complete() have
    returned, even while calls of cancel() on it are still in their loop: its destructor does not assert, nobody touches it afterwards,
    and everything else happens as if it were still there. *)
Theorem C82_recurring_event : forall U eager ls, frun (kept (recurring_prim U)) eager false ls <> Stuck ->
  undeleted (frun (kept (recurring_prim U)) eager false ls) = brun (recurring_prim U) eager (steps_of ls).
Proof.
  exact (fun U eager ls Hs => life_same _ _ eager (recurring_tlaws U) (kept (recurring_prim U)) false (fun _ => True) (fun _ _ _ => I) (fun _ => False)
    (fun _ _ _ _ _ Hm => False_ind _ (diff_false_true Hm)) (fun _ _ _ _ _ H _ _ => False_ind _ H) (fun _ _ _ _ _ H _ => False_ind _ H) ls Hs I eq_refl).
Qed.
Print Assumptions C82_recurring_event.

(** Destroyed earlier, as soon as the waits were notified, it can only be touched afterwards if cancel() was called on it. *)
Theorem C82_recurring_event_early_partial : forall U eager ls f tr, frun (kept (recurring_prim U)) eager true ls = Failed f tr ->
  brun (recurring_prim U) eager (steps_of ls) = Failed f (waits_of tr) \/
  (f = UseAfterFree /\ exists o e, In (EDelEv e) tr /\ uses_event o e (waits_of tr) /\ In (ECancel e) (waits_of tr) /\ notified o (waits_of tr) = 1).
Proof.
  intros U eager ls f tr Hr.
  destruct (life_fail _ _ eager (recurring_tlaws U) (kept (recurring_prim U)) true (fun _ => True) (fun _ _ _ => I) (fun _ => False)
    (fun _ _ _ _ _ Hm => False_ind _ (diff_false_true Hm)) (fun _ _ _ _ _ H _ _ => False_ind _ H) (fun _ _ _ _ _ H _ => False_ind _ H) ls f tr Hr I) as [H|(_ & H1 & o & e & a & H2 & H3 & H4 & H5)].
  - left. exact H.
  - right. split; [exact H1|]. exists o, e. split; [exact H2|]. split; [exists a; exact H3|]. split; [exact H4|exact H5].
Qed.
Print Assumptions C82_recurring_event_early_partial.

(** ** wait_group *)
(** A cancellation_event may be destroyed once all waits with a token of it were notified and their start() and complete() have
    returned, even while calls of cancel() on it are still in their loop: its destructor does not assert, nobody touches it afterwards,
    and everything else happens as if it were still there. *)
Theorem C82_wait_group : forall V n0 eager ls, frun (kept (wait_group V n0)) eager false ls <> Stuck ->
  undeleted (frun (kept (wait_group V n0)) eager false ls) = brun (wait_group V n0) eager (steps_of ls).
Proof.
  exact (fun V n0 eager ls Hs => life_same _ _ eager (wait_group_tlaws V n0) (kept (wait_group V n0)) false (fun _ => True) (fun _ _ _ => I) (fun _ => False)
    (fun _ _ _ _ _ Hm => False_ind _ (diff_false_true Hm)) (fun _ _ _ _ _ H _ _ => False_ind _ H) (fun _ _ _ _ _ H _ => False_ind _ H) ls Hs I eq_refl).
Qed.
Print Assumptions C82_wait_group.

(** Destroyed earlier, as soon as the waits were notified, it can only be touched afterwards if cancel() was called on it. *)
Theorem C82_wait_group_early_partial : forall V n0 eager ls f tr, frun (kept (wait_group V n0)) eager true ls = Failed f tr ->
  brun (wait_group V n0) eager (steps_of ls) = Failed f (waits_of tr) \/
  (f = UseAfterFree /\ exists o e, In (EDelEv e) tr /\ uses_event o e (waits_of tr) /\ In (ECancel e) (waits_of tr) /\ notified o (waits_of tr) = 1).
Proof.
  intros V n0 eager ls f tr Hr.
  destruct (life_fail _ _ eager (wait_group_tlaws V n0) (kept (wait_group V n0)) true (fun _ => True) (fun _ _ _ => I) (fun _ => False)
    (fun _ _ _ _ _ Hm => False_ind _ (diff_false_true Hm)) (fun _ _ _ _ _ H _ _ => False_ind _ H) (fun _ _ _ _ _ H _ => False_ind _ H) ls f tr Hr I) as [H|(_ & H1 & o & e & a & H2 & H3 & H4 & H5)].
  - left. exact H.
  - right. split; [exact H1|]. exists o, e. split; [exact H2|]. split; [exists a; exact H3|]. split; [exact H4|exact H5].
Qed.
Print Assumptions C82_wait_group_early_partial.

(** ** future *)
(** A cancellation_event may be destroyed once all waits with a token of it were notified and their start() and complete() have
    returned, even while calls of cancel() on it are still in their loop: its destructor does not assert, nobody touches it afterwards,
    and everything else happens as if it were still there. *)
Theorem C82_future : forall T eager ls, frun (kept (future_prim T)) eager false ls <> Stuck ->
  undeleted (frun (kept (future_prim T)) eager false ls) = brun (future_prim T) eager (steps_of ls).
Proof.
  exact (fun T eager ls Hs => life_same _ _ eager (future_tlaws T) (kept (future_prim T)) false (fun _ => True) (fun _ _ _ => I) (fun _ => False)
    (fun _ _ _ _ _ Hm => False_ind _ (diff_false_true Hm)) (fun _ _ _ _ _ H _ _ => False_ind _ H) (fun _ _ _ _ _ H _ => False_ind _ H) ls Hs I eq_refl).
Qed.
Print Assumptions C82_future.

(** Destroyed earlier, as soon as the waits were notified, it can only be touched afterwards if cancel() was called on it. *)
Theorem C82_future_early_partial : forall T eager ls f tr, frun (kept (future_prim T)) eager true ls = Failed f tr ->
  brun (future_prim T) eager (steps_of ls) = Failed f (waits_of tr) \/
  (f = UseAfterFree /\ exists o e, In (EDelEv e) tr /\ uses_event o e (waits_of tr) /\ In (ECancel e) (waits_of tr) /\ notified o (waits_of tr) = 1).
Proof.
  intros T eager ls f tr Hr.
  destruct (life_fail _ _ eager (future_tlaws T) (kept (future_prim T)) true (fun _ => True) (fun _ _ _ => I) (fun _ => False)
    (fun _ _ _ _ _ Hm => False_ind _ (diff_false_true Hm)) (fun _ _ _ _ _ H _ _ => False_ind _ H) (fun _ _ _ _ _ H _ => False_ind _ H) ls f tr Hr I) as [H|(_ & H1 & o & e & a & H2 & H3 & H4 & H5)].
  - left. exact H.
  - right. split; [exact H1|]. exists o, e. split; [exact H2|]. split; [exists a; exact H3|]. split; [exact H4|exact H5].
Qed.
Print Assumptions C82_future_early_partial.

(** ** post_ack *)
(** A cancellation_event may be destroyed once all waits with a token of it were notified and their start() and complete() have
    returned, even while calls of cancel() on it are still in their loop: its destructor does not assert, nobody touches it afterwards,
    and everything else happens as if it were still there. *)
Theorem C82_post_ack : forall T eager ls, frun (kept (post_ack T)) eager false ls <> Stuck ->
  undeleted (frun (kept (post_ack T)) eager false ls) = brun (post_ack T) eager (steps_of ls).
Proof.
  exact (fun T eager ls Hs => life_same _ _ eager (post_ack_tlaws T) (kept (post_ack T)) false (fun _ => True) (fun _ _ _ => I) (fun _ => False)
    (fun _ _ _ _ _ Hm => False_ind _ (diff_false_true Hm)) (fun _ _ _ _ _ H _ _ => False_ind _ H) (fun _ _ _ _ _ H _ => False_ind _ H) ls Hs I eq_refl).
Qed.
Print Assumptions C82_post_ack.

(** Destroyed earlier, as soon as the waits were notified, it can only be touched afterwards if cancel() was called on it. *)
Theorem C82_post_ack_early_partial : forall T eager ls f tr, frun (kept (post_ack T)) eager true ls = Failed f tr ->
  brun (post_ack T) eager (steps_of ls) = Failed f (waits_of tr) \/
  (f = UseAfterFree /\ exists o e, In (EDelEv e) tr /\ uses_event o e (waits_of tr) /\ In (ECancel e) (waits_of tr) /\ notified o (waits_of tr) = 1).
Proof.
  intros T eager ls f tr Hr.
  destruct (life_fail _ _ eager (post_ack_tlaws T) (kept (post_ack T)) true (fun _ => True) (fun _ _ _ => I) (fun _ => False)
    (fun _ _ _ _ _ Hm => False_ind _ (diff_false_true Hm)) (fun _ _ _ _ _ H _ _ => False_ind _ H) (fun _ _ _ _ _ H _ => False_ind _ H) ls f tr Hr I) as [H|(_ & H1 & o & e & a & H2 & H3 & H4 & H5)].
  - left. exact H.
  - right. split; [exact H1|]. exists o, e. split; [exact H2|]. split; [exists a; exact H3|]. split; [exact H4|exact H5].
Qed.
Print Assumptions C82_post_ack_early_partial.

(** ** It is possible: a put() has completed a get and is about to lock the mutex of the event, while cancel() runs and notifies the receiver; the client
    destroys the event (no operation is destroyed), and the put() locks the destroyed mutex. *)
Notation QP := (queue_prim nat).
Definition early_ls : list (flabel QP) :=
  map FStep [LStart (P := QP) 0 (Some 7) tt; LPath 0 PathL; LPath 0 PathL; LPrim (QPut 5 : PL QP); LWakeNext 0; LPath 0 PathP;
             LCancel 7; LCanNext 0; LPath 0 PathC; LPath 0 PathC; LPath 0 PathC] ++ [FDelEv 7].
Theorem C82_queue_early_refuted : exists ls tr, frun (kept QP) false true ls = Failed UseAfterFree tr /\
  waits_of tr = [EStart (P := QP) 0 (Some 7) tt; EPrim (EPut 5 : PE QP); ECancel 7; EDone (P := QP) 0 (Some 5)] /\
  exists s, brun QP false (steps_of ls) = Running s (waits_of tr).
Proof.
  exists (early_ls ++ [FStep (LPath 0 PathP)]),
    (map FE [EStart (P := QP) 0 (Some 7) tt; EPrim (EPut 5 : PE QP); ECancel 7; EDone (P := QP) 0 (Some 5)] ++ [EDelEv 7]).
  split; [apply failed_intro; vmrefl|]. split; [reflexivity|].
  exists (state_of (c_init QP) (brun QP false (steps_of (early_ls ++ [FStep (LPath 0 PathP)])))). apply running_intro. vmrefl.
Qed.
Print Assumptions C82_queue_early_refuted.

(** The same run with a client that waits for the put() first; the calls of cancel() (here: of a second thread, which finds nothing to do) may
    still be in flight. *)
Definition late_ls : list (flabel QP) :=
  map FStep [LStart (P := QP) 0 (Some 7) tt; LPath 0 PathL; LPath 0 PathL; LPrim (QPut 5 : PL QP); LWakeNext 0; LPath 0 PathP;
             LCancel 7; LCanNext 0; LPath 0 PathC; LPath 0 PathC; LPath 0 PathC; LPath 0 PathP; LCancel 7] ++ [FDelEv 7; FStep (LDestroy 0)].
Example C82_late : exists h tr, frun (kept QP) true false late_ls = Running h tr /\ f_ev h 7 = true /\ notified 0 (waits_of tr) = 1.
Proof. witness. split; vmrefl. Qed.
(** while put() is running, the client has to wait *)
Example C82_not_yet : frun (kept QP) true false early_ls = Stuck.
Proof. vmrefl. Qed.
(** The checks are real: an event with a registered callback, and a listen() on a destroyed event. *)
Definition waiting : life QP := state_of (f_init QP) (frun (kept QP) true true [FStep (LStart (P := QP) 0 (Some 7) tt)]).
Definition registered : life QP := state_of (f_init QP) (frun (kept QP) true true (map FStep [LStart (P := QP) 0 (Some 7) tt; LPath 0 PathL])).
Example C82_check_dtor : life_step QP (kept QP) true true (FS (f_base registered) [] (f_ev registered) false) (FDelEv 7) = Fail AssertFailed [EDelEv 7].
Proof. vmrefl. Qed.
Example C82_check_listen : life_step QP (kept QP) true true (FS (f_base waiting) [] (fun _ => true) false) (FStep (LPath 0 PathL)) = Fail UseAfterFree [].
Proof. vmrefl. Qed.

(** * C83: the primitives *)
(** ** queue *)
(** A queue may be destroyed as soon as the receivers of all of its gets were notified, even while put() and cancel() calls are still running:
    nobody touches it afterwards and everything else happens as if it were still there. *)
Theorem C83_queue : forall T eager ls, frun (queue_life T) eager false ls <> Stuck ->
  undeleted (frun (queue_life T) eager false ls) = brun (queue_prim T) eager (steps_of ls).
Proof.
  exact (fun T eager ls Hs => life_same _ _ eager (queue_tlaws T) (queue_life T) false (fun _ => True) (fun _ _ _ => I) (fun _ => True)
    (fun _ _ _ _ _ _ => I) (fun _ _ _ _ _ _ _ _ => I) (fun _ _ _ _ _ _ (H : ACall = AUse) => ltac:(discriminate)) ls Hs I eq_refl).
Qed.
Print Assumptions C83_queue.

(** ** recurring_event *)
(** The same holds for a recurring_event. *)
Theorem C83_recurring_event : forall eager ls, frun recurring_life eager false ls <> Stuck ->
  undeleted (frun recurring_life eager false ls) = brun recurring eager (steps_of ls).
Proof.
  exact (fun eager ls Hs => life_same _ _ eager (recurring_tlaws plain_user) recurring_life false (fun _ => True) (fun _ _ _ => I) (fun _ => True)
    (fun _ _ _ _ _ _ => I) (fun _ _ _ _ _ _ _ _ => I) (fun _ _ _ _ _ _ (H : ACall = AUse) => ltac:(discriminate)) ls Hs I eq_refl).
Qed.
Print Assumptions C83_recurring_event.

(** ** wait_group and oneshot_event *)
(** A wait_group may be destroyed as soon as its counter is zero and the receivers of all of its waits were notified, even while done() and
    cancel() calls are still running, if done() is called at most once per unit (the calls of wait_in_group included). *)
Theorem C83_wait_group : forall V n0 eager ls, frun (wait_group_life V n0) eager false ls <> Stuck ->
  wg_rule (waits_of (events_of (frun (wait_group_life V n0) eager false ls))) ->
  undeleted (frun (wait_group_life V n0) eager false ls) = brun (wait_group V n0) eager (steps_of ls).
Proof.
  exact (fun V n0 eager ls Hs Hr => life_same _ _ eager (wait_group_tlaws V n0) (wait_group_life V n0) false wg_rule (wg_rule_pre V n0) (wg_gone V n0)
    (wg_may V n0 eager) (wg_none V n0) (wg_use V n0 eager) ls Hs Hr eq_refl).
Qed.
Print Assumptions C83_wait_group.

(** So may a oneshot_event that was raised, if it is raised at most once. *)
Theorem C83_oneshot_event : forall eager ls, frun (wait_group_life Empty_set 1) eager false ls <> Stuck ->
  wg_rule (waits_of (events_of (frun (wait_group_life Empty_set 1) eager false ls))) ->
  undeleted (frun (wait_group_life Empty_set 1) eager false ls) = brun oneshot eager (steps_of ls).
Proof. exact (C83_wait_group Empty_set 1). Qed.
Print Assumptions C83_oneshot_event.

(** ** sequenced_event *)
(** A sequenced_event may be destroyed as soon as the receivers of all of its waits were notified and all calls of raise() are past ev_.raise(). *)
Theorem C83_sequenced_event_partial : forall eager ls, frun (sequenced_life true) eager false ls <> Stuck ->
  undeleted (frun (sequenced_life true) eager false ls) = brun sequenced eager (steps_of ls).
Proof.
  exact (fun eager ls Hs => life_same _ _ eager (recurring_tlaws sequenced_user) (sequenced_life true) false (fun _ => True) (fun _ _ _ => I) seq_gone
    (fun ls s tr _ _ => seq_may (c_prim s)) seq_none (fun ls s tr pl _ => seq_use (c_prim s) tr pl) ls Hs I eq_refl).
Qed.
Print Assumptions C83_sequenced_event_partial.

(** It must not be destroyed because all waits were notified: raise() publishes the new number before it calls ev_.raise(), a wait sees it and is
    notified without waiting, the client destroys the object, and raise() goes on with the destroyed ev_. *)
Theorem C83_sequenced_event_refuted : exists ls tr, frun (sequenced_life false) false false ls = Failed UseAfterFree tr /\
  waits_of tr = [EPrim (EUser (U := sequenced_user) ESeqRaise : PE sequenced); EStart (P := sequenced) 0 None 0; EDone (P := sequenced) 0 1; EPrim (ERaise : PE sequenced)] /\
  exists s, brun sequenced false (steps_of ls) = Running s (waits_of tr).
Proof.
  pose (ls := [FStep (LPrim (RUserStep (U := sequenced_user) SRaise : PL sequenced)); FStep (LStart (P := sequenced) 0 None 0); FStep (LPath 0 PathL); FDelPrim;
               FStep (LPrim (RRaise : PL sequenced))]).
  exists ls, (map FE [EPrim (EUser (U := sequenced_user) ESeqRaise : PE sequenced); EStart (P := sequenced) 0 None 0; EDone (P := sequenced) 0 1] ++ [EDelPrim; FE (EPrim (ERaise : PE sequenced))]).
  split; [apply failed_intro; vmrefl|]. split; [reflexivity|].
  exists (state_of (c_init sequenced) (brun sequenced false (steps_of ls))). apply running_intro. vmrefl.
Qed.
Print Assumptions C83_sequenced_event_refuted.

(** ** barrier *)
(** A barrier may be destroyed as soon as the receivers of all of its waits were notified and all arrivals are past evt_.raise(). *)
Theorem C83_barrier_partial : forall e0 eager ls, frun (barrier_life e0 true) eager false ls <> Stuck ->
  undeleted (frun (barrier_life e0 true) eager false ls) = brun (barrier e0) eager (steps_of ls).
Proof.
  exact (fun e0 eager ls Hs => life_same _ _ eager (recurring_tlaws (barrier_user e0)) (barrier_life e0 true) false (fun _ => True) (fun _ _ _ => I) (bar_gone e0)
    (fun ls s tr _ _ => bar_may e0 (c_prim s)) (bar_none e0) (fun ls s tr pl _ => bar_use e0 (c_prim s) tr pl) ls Hs I eq_refl).
Qed.
Print Assumptions C83_barrier_partial.

(** It must not be destroyed because all parties have arrived and all of their waits were notified: here both parties of a barrier for two arrive; the
    last arrival publishes the new phase before it calls evt_.raise(); the wait of the first party sees it and is notified without waiting, its client
    destroys the barrier, and the last arrival goes on with the destroyed evt_. *)
Theorem C83_barrier_refuted : exists ls tr, frun (barrier_life 2 false) false false ls = Failed UseAfterFree tr /\
  waits_of tr = [EPrim (EUser (U := barrier_user 2) (EArrive 1 0 0) : PE (barrier 2)); EPrim (EUser (U := barrier_user 2) (EArrive 1 0 0) : PE (barrier 2));
                 EStart (P := barrier 2) 0 None 0; EDone (P := barrier 2) 0 CondFailed; EPrim (ERaise : PE (barrier 2))] /\
  exists s, brun (barrier 2) false (steps_of ls) = Running s (waits_of tr).
Proof.
  pose (ls := [FStep (LPrim (RUserStep (U := barrier_user 2) (BArrive 1) : PL (barrier 2))); FStep (LPrim (RUserStep (U := barrier_user 2) (BArrive 1) : PL (barrier 2)));
               FStep (LStart (P := barrier 2) 0 None 0); FStep (LPath 0 PathL); FDelPrim; FStep (LPrim (RRaise : PL (barrier 2)))]).
  exists ls, (map FE [EPrim (EUser (U := barrier_user 2) (EArrive 1 0 0) : PE (barrier 2)); EPrim (EUser (U := barrier_user 2) (EArrive 1 0 0) : PE (barrier 2));
                      EStart (P := barrier 2) 0 None 0; EDone (P := barrier 2) 0 CondFailed] ++ [EDelPrim; FE (EPrim (ERaise : PE (barrier 2)))]).
  split; [apply failed_intro; vmrefl|]. split; [reflexivity|].
  exists (state_of (c_init (barrier 2)) (brun (barrier 2) false (steps_of ls))). apply running_intro. vmrefl.
Qed.
Print Assumptions C83_barrier_refuted.

(** ** Witnesses *)
(** A queue is destroyed by the receiver of its last get while the put() and the cancel() that compete for the get are still running. *)
Example C83_queue_w : exists h tr, frun (queue_life nat) true false
    (map FStep [LStart (P := QP) 0 (Some 7) tt; LPath 0 PathL; LPath 0 PathL; LPrim (QPut 5 : PL QP); LWakeNext 0; LPath 0 PathP;
                LCancel 7; LCanNext 0; LPath 0 PathC; LPath 0 PathC; LPath 0 PathC] ++ [FDelPrim; FStep (LPath 0 PathP)]) = Running h tr /\
  f_pr h = true /\ tr = map FE [EStart (P := QP) 0 (Some 7) tt; EPrim (EPut 5 : PE QP); ECancel 7; EDone (P := QP) 0 (Some 5)] ++ [EDelPrim].
Proof. witness. split; vmrefl. Qed.
(** A raise() of a recurring_event wakes waits 0 and 1; the receiver of 0 is notified, the event is kept; after 1 it is destroyed, by the
    receiver, while raise() is still in its loop. *)
Notation RP := recurring.
Definition raise_ls : list (flabel RP) :=
  map FStep [LStart (P := RP) 0 None true; LPath 0 PathL; LPath 0 PathL; LStart (P := RP) 1 None true; LPath 1 PathL; LPath 1 PathL;
             LPrim (RRaise : PL RP); LWakeNext 0; LPath 0 PathP; LPath 0 PathP; LWakeNext 0; LPath 1 PathP].
Example C83_recurring_event_w : exists h tr, frun recurring_life true false (raise_ls ++ [FStep (LPath 1 PathP); FDelPrim]) = Running h tr /\
  f_pr h = true /\ notified 0 (waits_of tr) = 1 /\ notified 1 (waits_of tr) = 1 /\ frun recurring_life true false (raise_ls ++ [FDelPrim]) = Stuck.
Proof. witness. repeat split; vmrefl. Qed.
(** A wait_group for two with a wait: the second done() wakes the wait, whose receiver destroys the group; a wrapped operation whose done() was the
    first one notifies its own receiver later still. *)
Notation GP := (wait_group nat 1).
Definition group_ls : list (flabel GP) :=
  map FStep [LPrim (WInStart 3 : PL GP); LStart (P := GP) 0 None tt; LPath 0 PathL; LPath 0 PathL; LPrim (WInDone 3 8 : PL GP);
             LPrim (WStep 0 : PL GP); LPrim (WStep 0 : PL GP); LPrim (WDone : PL GP); LPrim (WStep 1 : PL GP)].
Example C83_wait_group_w : exists h tr, frun (wait_group_life nat 1) true false
    (group_ls ++ map FStep [LPrim (WStep 1 : PL GP); LWakeNext 6; LPath 0 PathP; LPath 0 PathP] ++ [FDelPrim; FStep (LPrim (WStep 0 : PL GP))]) = Running h tr /\
  f_pr h = true /\ tr = map FE [EPrim (EInStart 3 : PE GP); EStart (P := GP) 0 None tt; EPrim (EInDone 3 8 : PE GP); EPrim (EDoneCall : PE GP);
                                 EDone (P := GP) 0 true] ++ [EDelPrim; FE (EPrim (EInOut 3 8 : PE GP))] /\
  frun (wait_group_life nat 1) true false (group_ls ++ [FDelPrim]) = Stuck.
Proof. witness. repeat split; vmrefl. Qed.
Example C83_wait_group_rule : wg_rule (V := nat) (n0 := 1)
  [EPrim (EInStart 3 : PE GP); EStart (P := GP) 0 None tt; EPrim (EInDone 3 8 : PE GP); EPrim (EDoneCall : PE GP); EDone (P := GP) 0 true; EPrim (EInOut 3 8 : PE GP)].
Proof.
  intros t1 t2 H. do 6 (destruct t1 as [|? t1]; [unfold dones, units, total; simpl; lia|simpl in H; injection H as <- H]).
  destruct t1; [unfold dones, units, total; simpl; lia|discriminate].
Qed.
(** The rule is needed: with one unit and two calls of done(), the second one touches the group after its destruction. *)
Example C83_wait_group_rule_needed : exists tr, frun (wait_group_life Empty_set 1) false false
    (map FStep [LPrim (WDone : PL oneshot); LPrim (WDone : PL oneshot); LPrim (WStep 0 : PL oneshot); LPrim (WStep 0 : PL oneshot)] ++
     [FDelPrim; FStep (LPrim (WStep 1 : PL oneshot))]) = Failed UseAfterFree tr.
Proof. witness. Qed.
(** The arrival is past evt_.raise(): the barrier may go. *)
Example C83_barrier_w : exists h tr, frun (barrier_life 2 true) true false
    [FStep (LPrim (RUserStep (U := barrier_user 2) (BArrive 1) : PL (barrier 2))); FStep (LPrim (RUserStep (U := barrier_user 2) (BArrive 1) : PL (barrier 2)));
     FStep (LStart (P := barrier 2) 0 None 0); FStep (LPath 0 PathL); FStep (LPrim (RRaise : PL (barrier 2))); FDelPrim] = Running h tr /\ f_pr h = true.
Proof. witness. vmrefl. Qed.
Example C83_sequenced_event_w : exists h tr, frun (sequenced_life true) true false
    [FStep (LPrim (RUserStep (U := sequenced_user) SRaise : PL sequenced)); FStep (LStart (P := sequenced) 0 None 0); FStep (LPath 0 PathL);
     FStep (LPrim (RRaise : PL sequenced)); FDelPrim] = Running h tr /\ f_pr h = true.
Proof. witness. vmrefl. Qed.
