(** Property theorems for the waits under the C++ memory model: C54 (no data races), C55 (visibility). *)
From Coq Require Import List Arith Bool Lia.
From Verif Require Import Lts M_Wait S_Wait P_Wait M_Queue S_Queue P_Queue M_Recurring P_Recurring M_Future P_Future M_PostAck P_PostAck.
From Verif Require Import M_WaitHB M_WaitLocks S_WaitHB P_WaitHB P_WaitVis P_WaitUse.
Import ListNotations.

(** The code: the fetch_or acquires and releases *)
Notation qrun T eager ls := (run (hstep (queue_prim T) eager (queue_lk T) true true) (h_init (queue_prim T)) ls).
Notation rrun eager ls := (run (hstep recurring eager (recurring_lk plain_user) true true) (h_init recurring) ls).
Notation frun T eager ls := (run (hstep (future_prim T) eager (future_lk T) true true) (h_init (future_prim T)) ls).
Notation krun T eager ls := (run (hstep (post_ack T) eager (post_ack_lk T) true true) (h_init (post_ack T)) ls).

(** ** C54: no data races *)
(** A client that destroys an operation only after all calls on it returned has no data races. *)
Theorem C54_queue : forall T ls tr, qrun T false ls <> Failed DataRace tr.
Proof. exact (fun T => h_norace (queue_prim T) (queue_laws T) (queue_tlaws T) (queue_lk T) (queue_lk_taken T) (queue_norace T)). Qed.
Print Assumptions C54_queue.

Theorem C54_recurring : forall ls tr, rrun false ls <> Failed DataRace tr.
Proof. exact (h_norace (recurring) (recurring_laws plain_user) (recurring_tlaws plain_user) (recurring_lk plain_user) (recurring_lk_taken) (recurring_norace)). Qed.
Print Assumptions C54_recurring.

Theorem C54_future : forall T ls tr, frun T false ls <> Failed DataRace tr.
Proof. exact (fun T => h_norace (future_prim T) (future_laws T) (future_tlaws T) (future_lk T) (future_lk_taken T) (future_norace T)). Qed.
Print Assumptions C54_future.

Theorem C54_post_ack : forall T ls tr, krun T false ls <> Failed DataRace tr.
Proof. exact (fun T => h_norace (post_ack T) (post_ack_laws T) (post_ack_tlaws T) (post_ack_lk T) (post_ack_lk_taken T) (post_ack_norace T)). Qed.
Print Assumptions C54_post_ack.

(** A client that destroys an operation as soon as its receiver was notified has a data race only if somebody cancels it, and then the destruction is one of
    the two accesses. *)
Theorem C54_queue_eager : forall T ls tr, qrun T true ls = Failed DataRace tr ->
  exists ls1 o ls2 h, ls = ls1 ++ HDestroy o :: ls2 /\ qrun T true ls1 = Running h tr /\ destroyed_early o tr.
Proof. exact (fun T ls tr Hr => proj2 (h_race (queue_prim T) (queue_laws T) true (queue_tlaws T) (queue_lk T) (queue_lk_taken T) ls tr Hr (queue_norace T true))). Qed.
Print Assumptions C54_queue_eager.

Theorem C54_recurring_eager : forall ls tr, rrun true ls = Failed DataRace tr ->
  exists ls1 o ls2 h, ls = ls1 ++ HDestroy o :: ls2 /\ rrun true ls1 = Running h tr /\ destroyed_early o tr.
Proof. exact (fun ls tr Hr => proj2 (h_race (recurring) (recurring_laws plain_user) true (recurring_tlaws plain_user) (recurring_lk plain_user) (recurring_lk_taken) ls tr Hr (recurring_norace true))). Qed.
Print Assumptions C54_recurring_eager.

Theorem C54_future_eager : forall T ls tr, frun T true ls = Failed DataRace tr ->
  exists ls1 o ls2 h, ls = ls1 ++ HDestroy o :: ls2 /\ frun T true ls1 = Running h tr /\ destroyed_early o tr.
Proof. exact (fun T ls tr Hr => proj2 (h_race (future_prim T) (future_laws T) true (future_tlaws T) (future_lk T) (future_lk_taken T) ls tr Hr (future_norace T true))). Qed.
Print Assumptions C54_future_eager.

Theorem C54_post_ack_eager : forall T ls tr, krun T true ls = Failed DataRace tr ->
  exists ls1 o ls2 h, ls = ls1 ++ HDestroy o :: ls2 /\ krun T true ls1 = Running h tr /\ destroyed_early o tr.
Proof. exact (fun T ls tr Hr => proj2 (h_race (post_ack T) (post_ack_laws T) true (post_ack_tlaws T) (post_ack_lk T) (post_ack_lk_taken T) ls tr Hr (post_ack_norace T true))). Qed.
Print Assumptions C54_post_ack_eager.

(** ... and it does have one: the call that completes the operation, here by calling the receiver from the canceller, accesses the operation after
    the notification, and the thread that destroys it need not know about that. *)
Definition queue_early : list (hlabel (queue_prim nat)) :=
  [HStart (P := queue_prim nat) 0 (Some 0) tt []; HPath 0 PathL; HPath 0 PathL; HPrim (QPut 5 : PL (queue_prim nat)) []; HWakeNext 0; HPath 0 PathP; HCancel 0 []; HCanNext 0; HPath 0 PathC; HPath 0 PathC; HPath 0 PathC; HPath 0 PathP; HDestroy 0].
Theorem C54_queue_eager_refuted : exists tr, run (hstep (queue_prim nat) true (queue_lk nat) true true) (h_init (queue_prim nat)) queue_early = Failed DataRace tr.
Proof. witness. Qed.
Print Assumptions C54_queue_eager_refuted.
(** the same calls are fine if the client waits for them *)
Example C54_queue_lazy : exists h tr, run (hstep (queue_prim nat) false (queue_lk nat) true true) (h_init (queue_prim nat)) queue_early = Running h tr /\ True.
Proof. witness. exact I. Qed.

Definition recurring_early : list (hlabel (recurring)) :=
  [HStart (P := recurring) 0 (Some 0) true []; HPath 0 PathL; HPath 0 PathL; HPrim (RRaise : PL recurring) []; HWakeNext 0; HPath 0 PathP; HCancel 0 []; HCanNext 0; HPath 0 PathC; HPath 0 PathC; HPath 0 PathC; HPath 0 PathP; HDestroy 0].
Theorem C54_recurring_eager_refuted : exists tr, run (hstep (recurring) true (recurring_lk plain_user) true true) (h_init (recurring)) recurring_early = Failed DataRace tr.
Proof. witness. Qed.
Print Assumptions C54_recurring_eager_refuted.
(** the same calls are fine if the client waits for them *)
Example C54_recurring_lazy : exists h tr, run (hstep (recurring) false (recurring_lk plain_user) true true) (h_init (recurring)) recurring_early = Running h tr /\ True.
Proof. witness. exact I. Qed.

Definition future_early : list (hlabel (future_prim nat)) :=
  [HStart (P := future_prim nat) 0 (Some 0) tt []; HPath 0 PathL; HPath 0 PathL; HPrim (FSet 5 : PL (future_prim nat)) []; HWakeNext 0; HPath 0 PathP; HCancel 0 []; HCanNext 0; HPath 0 PathC; HPath 0 PathC; HPath 0 PathC; HPath 0 PathP; HDestroy 0].
Theorem C54_future_eager_refuted : exists tr, run (hstep (future_prim nat) true (future_lk nat) true true) (h_init (future_prim nat)) future_early = Failed DataRace tr.
Proof. witness. Qed.
Print Assumptions C54_future_eager_refuted.
(** the same calls are fine if the client waits for them *)
Example C54_future_lazy : exists h tr, run (hstep (future_prim nat) false (future_lk nat) true true) (h_init (future_prim nat)) future_early = Running h tr /\ True.
Proof. witness. exact I. Qed.

Definition post_ack_early : list (hlabel (post_ack nat)) :=
  [HPrim (KAttach 0 : PL (post_ack nat)) []; HStart (P := post_ack nat) 0 (Some 0) 0 []; HPath 0 PathL; HPath 0 PathL; HPrim (KPost 9 5 : PL (post_ack nat)) []; HWakeNext 1; HPath 0 PathP; HCancel 0 []; HCanNext 0; HPath 0 PathC; HPath 0 PathC; HPath 0 PathC; HPath 0 PathP; HDestroy 0].
Theorem C54_post_ack_eager_refuted : exists tr, run (hstep (post_ack nat) true (post_ack_lk nat) true true) (h_init (post_ack nat)) post_ack_early = Failed DataRace tr.
Proof. witness. Qed.
Print Assumptions C54_post_ack_eager_refuted.
(** the same calls are fine if the client waits for them *)
Example C54_post_ack_lazy : exists h tr, run (hstep (post_ack nat) false (post_ack_lk nat) true true) (h_init (post_ack nat)) post_ack_early = Running h tr /\ True.
Proof. witness. exact I. Qed.

(** Without the acquire or the release of the fetch_or, a thread that registers the cancellation callback too late resumes without knowledge of the result. *)
Definition queue_late : list (hlabel (queue_prim nat)) :=
  [HStart (P := queue_prim nat) 0 (Some 0) tt []; HPath 0 PathL; HPrim (QPut 5 : PL (queue_prim nat)) []; HWakeNext 0; HPath 0 PathP; HPath 0 PathL; HPath 0 PathL; HPath 0 PathL].
Theorem C54_queue_orders_needed : forall acq rel, (exists tr, run (hstep (queue_prim nat) false (queue_lk nat) acq rel) (h_init (queue_prim nat)) queue_late = Failed DataRace tr) <-> acq && rel = false.
Proof. intros [|] [|]; split; try discriminate; try reflexivity; try (intros _; witness). intros [tr H]. vm_compute in H. discriminate H. Qed.
Print Assumptions C54_queue_orders_needed.

Definition recurring_late : list (hlabel (recurring)) :=
  [HStart (P := recurring) 0 (Some 0) true []; HPath 0 PathL; HPrim (RRaise : PL recurring) []; HWakeNext 0; HPath 0 PathP; HPath 0 PathL; HPath 0 PathL; HPath 0 PathL].
Theorem C54_recurring_orders_needed : forall acq rel, (exists tr, run (hstep (recurring) false (recurring_lk plain_user) acq rel) (h_init (recurring)) recurring_late = Failed DataRace tr) <-> acq && rel = false.
Proof. intros [|] [|]; split; try discriminate; try reflexivity; try (intros _; witness). intros [tr H]. vm_compute in H. discriminate H. Qed.
Print Assumptions C54_recurring_orders_needed.

Definition future_late : list (hlabel (future_prim nat)) :=
  [HStart (P := future_prim nat) 0 (Some 0) tt []; HPath 0 PathL; HPrim (FSet 5 : PL (future_prim nat)) []; HWakeNext 0; HPath 0 PathP; HPath 0 PathL; HPath 0 PathL; HPath 0 PathL].
Theorem C54_future_orders_needed : forall acq rel, (exists tr, run (hstep (future_prim nat) false (future_lk nat) acq rel) (h_init (future_prim nat)) future_late = Failed DataRace tr) <-> acq && rel = false.
Proof. intros [|] [|]; split; try discriminate; try reflexivity; try (intros _; witness). intros [tr H]. vm_compute in H. discriminate H. Qed.
Print Assumptions C54_future_orders_needed.

Definition post_ack_late : list (hlabel (post_ack nat)) :=
  [HPrim (KAttach 0 : PL (post_ack nat)) []; HStart (P := post_ack nat) 0 (Some 0) 0 []; HPath 0 PathL; HPrim (KPost 9 5 : PL (post_ack nat)) []; HWakeNext 1; HPath 0 PathP; HPath 0 PathL; HPath 0 PathL; HPath 0 PathL].
Theorem C54_post_ack_orders_needed : forall acq rel, (exists tr, run (hstep (post_ack nat) false (post_ack_lk nat) acq rel) (h_init (post_ack nat)) post_ack_late = Failed DataRace tr) <-> acq && rel = false.
Proof. intros [|] [|]; split; try discriminate; try reflexivity; try (intros _; witness). intros [tr H]. vm_compute in H. discriminate H. Qed.
Print Assumptions C54_post_ack_orders_needed.

(** ** C55: visibility *)
(** The receiver sees what was done before the calls that completed it, and before the calls that locked the mutex before it was started. *)
Theorem C55_queue_calls : forall T eager ls h tr, qrun T eager ls = Running h tr -> calls_visible tr /\ earlier_visible tr.
Proof. exact (fun T eager ls h tr Hr => conj (h_vis_calls (queue_prim T) (queue_laws T) eager (queue_tlaws T) (queue_lk T) (queue_lk_taken T) ls h tr Hr) (h_vis_earlier (queue_prim T) (queue_laws T) eager (queue_tlaws T) (queue_lk T) (queue_lk_taken T) ls h tr Hr)). Qed.
Print Assumptions C55_queue_calls.

Theorem C55_recurring_calls : forall eager ls h tr, rrun eager ls = Running h tr -> calls_visible tr /\ earlier_visible tr.
Proof. exact (fun eager ls h tr Hr => conj (h_vis_calls (recurring) (recurring_laws plain_user) eager (recurring_tlaws plain_user) (recurring_lk plain_user) (recurring_lk_taken) ls h tr Hr) (h_vis_earlier (recurring) (recurring_laws plain_user) eager (recurring_tlaws plain_user) (recurring_lk plain_user) (recurring_lk_taken) ls h tr Hr)). Qed.
Print Assumptions C55_recurring_calls.

Theorem C55_future_calls : forall T eager ls h tr, frun T eager ls = Running h tr -> calls_visible tr /\ earlier_visible tr.
Proof. exact (fun T eager ls h tr Hr => conj (h_vis_calls (future_prim T) (future_laws T) eager (future_tlaws T) (future_lk T) (future_lk_taken T) ls h tr Hr) (h_vis_earlier (future_prim T) (future_laws T) eager (future_tlaws T) (future_lk T) (future_lk_taken T) ls h tr Hr)). Qed.
Print Assumptions C55_future_calls.

Theorem C55_post_ack_calls : forall T eager ls h tr, krun T eager ls = Running h tr -> calls_visible tr /\ earlier_visible tr.
Proof. exact (fun T eager ls h tr Hr => conj (h_vis_calls (post_ack T) (post_ack_laws T) eager (post_ack_tlaws T) (post_ack_lk T) (post_ack_lk_taken T) ls h tr Hr) (h_vis_earlier (post_ack T) (post_ack_laws T) eager (post_ack_tlaws T) (post_ack_lk T) (post_ack_lk_taken T) ls h tr Hr)). Qed.
Print Assumptions C55_post_ack_calls.

(** Whoever receives a value sees what was done before the call of put() that stored it. *)
Theorem C55_queue : forall T eager ls h ta d os x w tb o v t2,
  qrun T eager ls = Running h (ta ++ HCall KLocked d os :: HE (EPrim (EPut x : PE (queue_prim T))) w :: tb ++ HE (EDone (P := queue_prim T) o (Some x)) v :: t2) ->
  ~ In x (puts (api ta)) -> In d v.
Proof. exact q_visible. Qed.
Print Assumptions C55_queue.
(** The thread that started the operation resumes it after the thread that called put(); the value was buffered before the operation was started *)
Example C55_queue_example : exists h, qrun nat false queue_late =
  Running h ([HE (EStart (P := queue_prim nat) 0 (Some 0) tt) [3; 2; 1; 0]] ++ HCall KLocked 7 [0] :: HE (EPrim (EPut 5 : PE (queue_prim nat))) [9; 8; 7; 3; 2; 1; 0] ::
     [] ++ HE (EDone (P := queue_prim nat) 0 (Some 5)) [18; 17; 16; 15; 14; 13; 6; 5; 4; 3; 2; 1; 0; 12; 11; 10; 9; 8; 7; 3; 2; 1; 0; 6; 5; 4; 3; 2; 1; 0] :: []) /\ ~ In 5 (puts (api [HE (EStart (P := queue_prim nat) 0 (Some 0) tt) [3; 2; 1; 0]])).
Proof. witness. simpl. tauto. Qed.
Example C55_queue_example_fast : exists h,
  qrun nat false [HPrim (QPut 5 : PL (queue_prim nat)) []; HStart 0 (Some 0) (tt : PA (queue_prim nat)) []; HPath 0 PathL] =
  Running h ([] ++ HCall KLocked 0 [] :: HE (EPrim (EPut 5 : PE (queue_prim nat))) [0] ::
     [HE (EStart (P := queue_prim nat) 0 (Some 0) tt) [3; 2; 1; 0]] ++ HE (EDone (P := queue_prim nat) 0 (Some 5)) [4; 3; 2; 1; 0] :: []) /\
  ~ In 5 (puts (T := nat) (api [])).
Proof. witness. simpl. tauto. Qed.

(** Whoever receives the value of a future sees what was done before set_value(). *)
Theorem C55_future : forall T eager ls h ta d os x w tb o y v t2,
  frun T eager ls = Running h (ta ++ HCall KLocked d os :: HE (EPrim (ESet x : PE (future_prim T))) w :: tb ++ HE (EDone (P := future_prim T) o (Some y)) v :: t2) ->
  In d v.
Proof. exact f_visible. Qed.
Print Assumptions C55_future.
Example C55_future_example : exists h,
  frun nat false [HPrim (FSet 5 : PL (future_prim nat)) []; HStart 0 (Some 0) (tt : PA (future_prim nat)) []; HPath 0 PathL] =
  Running h ([] ++ HCall KLocked 0 [] :: HE (EPrim (ESet 5 : PE (future_prim nat))) [0] ::
     [HE (EStart (P := future_prim nat) 0 (Some 0) tt) [3; 2; 1; 0]] ++ HE (EDone (P := future_prim nat) 0 (Some 5)) [4; 3; 2; 1; 0] :: []) /\ True.
Proof. witness. exact I. Qed.

(** Whoever was awoken by a recurring_event sees what was done before a call of raise() that took it over. *)
Theorem C55_recurring : forall eager ls h t1 o v t2,
  rrun eager ls = Running h (t1 ++ HE (EDone (P := recurring) o (Awaited : PV recurring)) v :: t2) ->
  exists d os, In (HCall KLocked d os) t1 /\ In o os /\ In d v.
Proof. exact r_visible. Qed.
Print Assumptions C55_recurring.
Example C55_recurring_example : exists h, rrun false recurring_late =
  Running h ([HE (EStart (P := recurring) 0 (Some 0) (true : PA recurring)) [3; 2; 1; 0]; HCall KLocked 7 [0]; HE (EPrim (ERaise : PE recurring)) [9; 8; 7; 3; 2; 1; 0]] ++
     HE (EDone (P := recurring) 0 (Awaited : PV recurring)) [18; 17; 16; 15; 14; 13; 6; 5; 4; 3; 2; 1; 0; 12; 11; 10; 9; 8; 7; 3; 2; 1; 0; 6; 5; 4; 3; 2; 1; 0] :: []) /\ True.
Proof. witness. exact I. Qed.

(** Whoever polls a handle to a post sees what was done before that post. *)
Theorem C55_post_ack : forall T eager ls h ta d os p x w tb o v t2,
  krun T eager ls = Running h (ta ++ HCall KLocked d os :: HE (EPrim (EPost p x : PE (post_ack T))) w :: tb ++ HE (EDone (P := post_ack T) o (Some p)) v :: t2) ->
  ~ posted p (api ta) -> In d v.
Proof. exact k_visible. Qed.
Print Assumptions C55_post_ack.
Example C55_post_ack_example : exists h, krun nat false post_ack_late =
  Running h ([HCall KLocked 0 []; HE (EPrim (EAttach 0 : PE (post_ack nat))) [0]; HE (EStart (P := post_ack nat) 0 (Some 0) 0) [4; 3; 2; 1; 0]] ++
     HCall KLocked 8 [0] :: HE (EPrim (EPost 9 5 : PE (post_ack nat))) [10; 9; 8; 4; 3; 2; 1; 0] ::
     [] ++ HE (EDone (P := post_ack nat) 0 (Some 9)) [19; 18; 17; 16; 15; 14; 7; 6; 5; 4; 3; 2; 1; 0; 13; 12; 11; 10; 9; 8; 4; 3; 2; 1; 0; 7; 6; 5; 4; 3; 2; 1; 0] :: []) /\
  ~ posted 9 (api [HCall KLocked 0 []; HE (EPrim (EAttach 0 : PE (post_ack nat))) [0]; HE (EStart (P := post_ack nat) 0 (Some 0) 0) [4; 3; 2; 1; 0]]).
Proof. witness. intros [x [H|[H|[]]]]; discriminate. Qed.
