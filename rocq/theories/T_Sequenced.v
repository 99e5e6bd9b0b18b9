(** Property theorems for async::sequenced_event (C11, C12) and async::barrier (C13, C14, C15).
    Their waits are recurring_event waits, so C01, C02 and C05 are the theorems of T_Recurring. *)
From Coq Require Import List Arith Bool ZArith Lia.
From Verif Require Import Lts M_Wait S_Wait P_Wait M_Recurring S_Recurring P_Recurring P_Sequenced P_Barrier.
Import ListNotations.

Notation SP := sequenced.
Notation srun eager ls := (run (step SP eager) (c_init SP) ls).
Notation brun e0 eager ls := (run (step (barrier e0) eager) (c_init (barrier e0)) ls).

(** ** C11: a raise is never missed *)
(** [n < seqno]: the sequence number has passed the one waited for, before or after the start of the wait. *)
Theorem C11_sequenced_woken : forall eager ls s t1 o tok n t2,
  srun eager ls = Running s (t1 ++ EStart (P := SP) o tok n :: t2) ->
  all_returned s -> no_raise_in_progress (t1 ++ EStart (P := SP) o tok n :: t2) ->
  n < seqno (t1 ++ EStart (P := SP) o tok n :: t2) -> notified o (t1 ++ EStart (P := SP) o tok n :: t2) = 1.
Proof. exact seq_woken. Qed.
Print Assumptions C11_sequenced_woken.

(** A raise() in progress can always go on. *)
Theorem C11_sequenced_raise : forall eager ls s tr, srun eager ls = Running s tr -> ~ no_raise_in_progress tr ->
  exists s', step SP eager s (LPrim (RRaise : PL SP)) = Next s' [EPrim (ERaise : PE SP)].
Proof. exact seq_raise_enabled. Qed.
Print Assumptions C11_sequenced_raise.

(** The assertion of async_wait fails only if somebody waits for a number from the future; the only other failure is C04. *)
Theorem C11_sequenced_failures : forall eager ls f tr, srun eager ls = Failed f tr ->
  (f = AssertFailed /\ ~ seq_rule tr) \/
  (eager = true /\ f = UseAfterFree /\ exists o, In (EDestroy o) tr /\ notified o tr = 1 /\ cancel_requested o tr).
Proof. exact seq_fail. Qed.
Print Assumptions C11_sequenced_failures.

(** next_sequence() returns the number that the next raise() makes current. *)
Theorem C11_sequenced_next : forall eager ls s t1 v t2, srun eager ls = Running s (t1 ++ EPrim (EUser (ESeqNext v : UE sequenced_user) : PE SP) :: t2) -> v = S (seqno t1).
Proof. exact seq_next. Qed.
Print Assumptions C11_sequenced_next.

(** ** C12: the returned sequence number *)
(** False: a wait for number 1 without a token returns 1.  raise() has set the number to 1 but not yet raised the
    underlying event; the wait that starts now is queued and woken by that same raise(). *)
Definition sdemo1 : list (label SP) :=
  [LPrim (RUserStep (SRaise : UL sequenced_user) : PL SP); LStart (P := SP) 0 None 1; LPath 0 PathL; LPath 0 PathL;
   LPrim (RRaise : PL SP); LWakeNext 1; LPath 0 PathP; LPath 0 PathP].
Theorem C12_sequenced_refuted : exists ls s t1 o n t2 v t3,
  srun false ls = Running s (t1 ++ EStart (P := SP) o None n :: t2 ++ EDone (P := SP) o v :: t3) /\
  seq_rule (t1 ++ EStart (P := SP) o None n :: t2 ++ EDone (P := SP) o v :: t3) /\ v <= n.
Proof.
  exists sdemo1, (state_of (c_init SP) (srun false sdemo1)).
  exists [EPrim (EUser (ESeqRaise : UE sequenced_user) : PE SP)], 0, 1, [EPrim (ERaise : PE SP)], 1, [].
  assert (Hr : srun false sdemo1 = Running (state_of (c_init SP) (srun false sdemo1))
    [EPrim (EUser (ESeqRaise : UE sequenced_user) : PE SP); EStart (P := SP) 0 None 1; EPrim (ERaise : PE SP); EDone (P := SP) 0 1])
    by (apply running_intro; vmrefl).
  split; [exact Hr|]. split; [|apply le_n]. exact (seq_running_rule false _ _ _ Hr).
Qed.
Print Assumptions C12_sequenced_refuted.

(** What holds: the value is always the current sequence number, which is at least the one waited for ... *)
Theorem C12_sequenced_value_partial : forall eager ls s t1 o tok n t2 v t3,
  srun eager ls = Running s (t1 ++ EStart (P := SP) o tok n :: t2 ++ EDone (P := SP) o v :: t3) ->
  v = seqno (t1 ++ EStart (P := SP) o tok n :: t2) /\ n <= seqno t1.
Proof. exact seq_value. Qed.
Print Assumptions C12_sequenced_value_partial.

(** ... and it is greater if no raise() was half-way through when the wait started. *)
Theorem C12_sequenced_partial : forall eager ls s t1 o tok n t2 v t3,
  srun eager ls = Running s (t1 ++ EStart (P := SP) o tok n :: t2 ++ EDone (P := SP) o v :: t3) ->
  no_raise_in_progress t1 -> ~ cancel_requested o (t1 ++ EStart (P := SP) o tok n :: t2) -> v > n.
Proof. exact seq_past. Qed.
Print Assumptions C12_sequenced_partial.

(** ** C13: nobody passes the barrier early *)
(** False: expected count 2.  Two threads arrive for phase 0; the second completes it but is preempted before it raises
    the event.  The first thread passes, arrives for phase 1 and waits for phase 1 -- and is woken by the late raise,
    although only one of two arrivals of phase 1 happened. *)
Definition bdemo1 : list (label (barrier 2)) :=
  [LPrim (RUserStep (BArrive 1 : UL (barrier_user 2)) : PL (barrier 2));
   LPrim (RUserStep (BArrive 1 : UL (barrier_user 2)) : PL (barrier 2));
   LStart (P := barrier 2) 0 None 0; LPath 0 PathL;
   LPrim (RUserStep (BArrive 1 : UL (barrier_user 2)) : PL (barrier 2));
   LStart (P := barrier 2) 1 None 1; LPath 1 PathL; LPath 1 PathL; LPrim (RRaise : PL (barrier 2)); LWakeNext 3; LPath 1 PathP].
Theorem C13_barrier_refuted : exists e0 ls s t1 o k t2 v t3 n d,
  brun e0 false ls = Running s (t1 ++ EStart (P := barrier e0) o None k :: t2 ++ EDone (P := barrier e0) o v :: t3) /\
  In (n, d, k) (arrivals t1) /\ phases (t1 ++ EStart (P := barrier e0) o None k :: t2) k.
Proof.
  exists 2%Z, (bdemo1 ++ [LPath 1 PathP]), (state_of (c_init (barrier 2)) (brun 2 false (bdemo1 ++ [LPath 1 PathP]))).
  exists [EPrim (EUser (EArrive 1 0 0 : UE (barrier_user 2)) : PE (barrier 2)); EPrim (EUser (EArrive 1 0 0 : UE (barrier_user 2)) : PE (barrier 2));
          EStart (P := barrier 2) 0 None 0; EDone (P := barrier 2) 0 CondFailed; EPrim (EUser (EArrive 1 0 1 : UE (barrier_user 2)) : PE (barrier 2))],
    1, 1, [EPrim (ERaise : PE (barrier 2))], Awaited, [], 1%Z, 0%Z.
  split; [apply running_intro; vmrefl|]. split; [simpl; tauto|].
  eapply (bar_phases_of 2 false bdemo1); [apply (running_intro (c_init _)); vmrefl|vmrefl].
Qed.
Print Assumptions C13_barrier_refuted.

(** What holds: a wait on a token obtained before does not complete early if no arrive call was half-way through (phase
    completed, event not yet raised) when the wait started. *)
Theorem C13_barrier_partial : forall e0 eager ls s t1 o tok k t2 v t3 n d j j',
  brun e0 eager ls = Running s (t1 ++ EStart (P := barrier e0) o tok k :: t2 ++ EDone (P := barrier e0) o v :: t3) ->
  In (n, d, k) (arrivals t1) -> phases t1 j -> count is_raise t1 = j ->
  ~ cancel_requested o (t1 ++ EStart (P := barrier e0) o tok k :: t2) ->
  phases (t1 ++ EStart (P := barrier e0) o tok k :: t2) j' -> k < j'.
Proof. exact bar_not_early. Qed.
Print Assumptions C13_barrier_partial.

(** ** C14: everybody passes eventually *)
Theorem C14_barrier_woken : forall e0 eager ls s t1 o tok k t2 j,
  brun e0 eager ls = Running s (t1 ++ EStart (P := barrier e0) o tok k :: t2) ->
  all_returned s -> phases (t1 ++ EStart (P := barrier e0) o tok k :: t2) j -> k < j ->
  count is_raise (t1 ++ EStart (P := barrier e0) o tok k :: t2) = j (* every arrive call has returned *) ->
  notified o (t1 ++ EStart (P := barrier e0) o tok k :: t2) = 1.
Proof. exact bar_woken. Qed.
Print Assumptions C14_barrier_woken.

(** An arrive call that completed a phase can always go on. *)
Theorem C14_barrier_raise : forall e0 eager ls s tr k, brun e0 eager ls = Running s tr -> phases tr k -> count is_raise tr < k ->
  exists s', step (barrier e0) eager s (LPrim (RRaise : PL (barrier e0))) = Next s' [EPrim (ERaise : PE (barrier e0))].
Proof. exact bar_raise_enabled. Qed.
Print Assumptions C14_barrier_raise.

(** ** C15: phase accounting *)
(** Phases and tokens are as the specification [log] says; each completed phase raises the event at most once ... *)
Theorem C15_barrier_log : forall e0 eager ls s tr, brun e0 eager ls = Running s tr ->
  exists k e l, log e0 0 (arrivals tr) k e l /\ count is_raise tr <= k.
Proof. exact bar_accounting. Qed.
Print Assumptions C15_barrier_log.

(** ... where arrive(n) counts n arrivals, arrive_and_join(n) also raises the expectation by n, arrive_and_drop(n) lowers it by n, and each
    returns the number [b_seq] of the current phase ... *)
Theorem C15_barrier_calls : forall e0 eager s l s' es, step (barrier e0) eager s (LPrim (RUserStep (l : UL (barrier_user e0)) : PL (barrier e0))) = Next s' es ->
  es = [EPrim (EUser (match l with BArrive n => EArrive n 0 | BJoin n => EArrive n n | BDrop n => EArrive 0 (- n) end (b_seq (r_g (c_prim s))) : UE (barrier_user e0)) : PE (barrier e0))].
Proof. exact bar_calls. Qed.
Print Assumptions C15_barrier_calls.

(** ... the specification leaves no freedom ... *)
Theorem C15_barrier_unique : forall e k L k1 e1 l1, log e k L k1 e1 l1 ->
  forall k2 e2 l2, log e k L k2 e2 l2 -> k1 = k2 /\ e1 = e2 /\ l1 = l2.
Proof. exact log_det. Qed.
Print Assumptions C15_barrier_unique.

(** ... and an assertion fails only if the last arrival overshoots: it makes the expected count negative, or the
    arrivals of the phase exceed it. *)
Theorem C15_barrier_asserts : forall e0 eager ls f tr, brun e0 eager ls = Failed f tr ->
  (f = AssertFailed /\ exists tr0 n d k e l, tr = tr0 ++ [EPrim (EUser (EArrive n d k : UE (barrier_user e0)) : PE (barrier e0))] /\
     log e0 0 (arrivals tr0) k e l /\
     ((e + adjusted (l ++ [(n, d, k)]) < 0)%Z \/ (arrived (l ++ [(n, d, k)]) > e + adjusted (l ++ [(n, d, k)]))%Z)) \/
  (eager = true /\ f = UseAfterFree /\ exists o, In (EDestroy o) tr /\ notified o tr = 1 /\ cancel_requested o tr).
Proof. exact bar_fail. Qed.
Print Assumptions C15_barrier_asserts.

(** ** Witnesses *)
(** sequenced: wait for number 0, raise, wait for number 1 with the token of event 5, raise, both report. *)
Definition sdemo : list (label SP) :=
  [LStart (P := SP) 0 None 0; LPath 0 PathL; LPath 0 PathL;
   LPrim (RUserStep (SRaise : UL sequenced_user) : PL SP); LPrim (RRaise : PL SP); LWakeNext 1; LPath 0 PathP; LPath 0 PathP;
   LStart (P := SP) 1 (Some 5) 1; LPath 1 PathL; LPath 1 PathL;
   LPrim (RUserStep (SRaise : UL sequenced_user) : PL SP); LPrim (RRaise : PL SP); LWakeNext 3; LPath 1 PathP; LPath 1 PathP; LPath 1 PathP;
   LStart (P := SP) 2 None 1; LPath 2 PathL].
Example sdemo_trace : exists s, srun true sdemo =
  Running s [EStart (P := SP) 0 None 0; EPrim (EUser (ESeqRaise : UE sequenced_user) : PE SP); EPrim (ERaise : PE SP); EDone (P := SP) 0 1;
             EStart (P := SP) 1 (Some 5) 1; EPrim (EUser (ESeqRaise : UE sequenced_user) : PE SP); EPrim (ERaise : PE SP); EDone (P := SP) 1 2;
             EStart (P := SP) 2 None 1; EDone (P := SP) 2 2] /\ all_returned s.
Proof.
  witness.
  apply (t_returned_final _ _ true (recurring_tlaws sequenced_user) sdemo); vmrefl.
Qed.

(** a wait for a number from the future fails the assertion *)
Example sdemo_future : exists tr, srun true [LStart (P := SP) 0 None 1] = Failed AssertFailed tr /\ ~ seq_rule tr.
Proof.
  exists [EStart (P := SP) 0 None 1]. split; [apply failed_intro; vmrefl|].
  intros H. specialize (H [] 0 None 1 [] eq_refl). unfold seqno, count in H. simpl in H. lia.
Qed.

(** barrier: two phases with a join in between; operation 0 waits for phase 0, operation 1 for phase 1. *)
Notation BA l := (LPrim (RUserStep (l : UL (barrier_user 2)) : PL (barrier 2))).
Notation BE n d k := (EPrim (EUser (EArrive n d k : UE (barrier_user 2)) : PE (barrier 2))).
Definition bdemo : list (label (barrier 2)) :=
  [BA (BArrive 1); LStart (P := barrier 2) 0 None 0; LPath 0 PathL; LPath 0 PathL; BA (BArrive 1);
   LPrim (RRaise : PL (barrier 2)); LWakeNext 2; LPath 0 PathP; LPath 0 PathP;
   BA (BJoin 1); LStart (P := barrier 2) 1 None 1; LPath 1 PathL; LPath 1 PathL; BA (BDrop 1); BA (BArrive 1);
   LPrim (RRaise : PL (barrier 2)); LWakeNext 6; LPath 1 PathP; LPath 1 PathP].
Example bdemo_trace : exists s, brun 2 true bdemo =
  Running s [BE 1 0 0; EStart (P := barrier 2) 0 None 0; BE 1 0 0; EPrim (ERaise : PE (barrier 2)); EDone (P := barrier 2) 0 Awaited;
             BE 1 1 1; EStart (P := barrier 2) 1 None 1; BE 0 (-1) 1; BE 1 0 1; EPrim (ERaise : PE (barrier 2)); EDone (P := barrier 2) 1 Awaited]
  /\ all_returned s /\ b_seq (r_g (c_prim s)) = 2.
Proof.
  witness. split; [|vmrefl].
  apply (t_returned_final _ _ true (recurring_tlaws (barrier_user 2)) bdemo); vmrefl.
Qed.
Example bdemo_phases : exists s tr, brun 2 true bdemo = Running s tr /\ phases tr 2 /\ count is_raise tr = 2.
Proof.
  witness. split; [|vmrefl].
  apply (bar_phases_final 2 true bdemo). vmrefl.
Qed.

(** too many arrivals fail the assertion *)
Example bdemo_overshoot : exists tr, brun 2 true [BA (BArrive 3)] = Failed AssertFailed tr.
Proof. witness. Qed.

(** next_sequence() after two raise() *)
Example sdemo_next : exists s, srun true [LPrim (RUserStep (SRaise : UL sequenced_user) : PL SP); LPrim (RUserStep (SRaise : UL sequenced_user) : PL SP); LPrim (RUserStep (SNext : UL sequenced_user) : PL SP)] =
  Running s [EPrim (EUser (ESeqRaise : UE sequenced_user) : PE SP); EPrim (EUser (ESeqRaise : UE sequenced_user) : PE SP); EPrim (EUser (ESeqNext 3 : UE sequenced_user) : PE SP)].
Proof. eexists. reflexivity. Qed.
