(** C62 and C63: sequenced_event under the C++ memory model. *)
From Coq Require Import List Arith Bool Lia.
From Verif Require Import Lts M_Weak M_SequencedW S_SequencedW P_SequencedW.
Import ListNotations.

(** The memory orders of the code: line 13 is acq_rel, lines 18, 23 and 28 are acquire *)
Definition code_step := s_step true true true.

(** ** C62: what happens before raise() happens before the return of a number that counts it *)

Theorem C62_sequenced_visible ls s tr : run code_step s_init ls = Running s tr -> sees_raises tr.
Proof. intros H o by_ x before Hin. exact (proj1 (proj2 (e_d _ _ _ _ (se_inv true true true ls s tr H) o by_ x before Hin)) eq_refl). Qed.
Print Assumptions C62_sequenced_visible.
Theorem C62_sequenced_next ls s tr : run code_step s_init ls = Running s tr -> next_sees tr.
Proof. intros H x before Hin. exact (proj2 (e_nx _ _ _ _ (se_inv true true true ls s tr H) x before Hin) eq_refl). Qed.
Print Assumptions C62_sequenced_next.

(** One call of raise(); a wait on 0 reads the number that it made. *)
Definition fast : list slabel := [SLRaise vbot; SLWait 0 0 vbot 1; SLFast 0 1; SLNext vbot 1].
Definition fast_trace : list sevent := [SERaise 1 0; SEWait 0 0; SEDone 0 None 1 []; SENext 2 []].
Lemma fast_run r_acq r_rel ld_acq : r_rel && ld_acq = false -> exists s, run (s_step r_acq r_rel ld_acq) s_init fast = Running s fast_trace /\ s_acc s = 1.
Proof. intros H. destruct r_acq, r_rel, ld_acq; try discriminate H; witness; vmrefl. Qed.

(** Release by the fetch_add and acquire by the loads are both needed.  Acquire by the fetch_add is not: a fetch_add continues the release sequences of the
    earlier ones. *)
Theorem C62_sequenced_orders r_acq r_rel ld_acq :
  (forall ls s tr, run (s_step r_acq r_rel ld_acq) s_init ls = Running s tr -> sees_raises tr /\ next_sees tr) <-> r_rel && ld_acq = true.
Proof.
  split.
  - intros H. destruct (r_rel && ld_acq) eqn:E; [reflexivity|]. exfalso. destruct (fast_run r_acq _ _ E) as (s & Hs & _). destruct (H _ _ _ Hs) as [H1 _].
    destruct (H1 0 None 1 [] ltac:(simpl; auto) 1 0 (le_n 1) ltac:(simpl; auto)).
  - intros E ls s tr Hr. pose proof (se_inv r_acq r_rel ld_acq ls s tr Hr) as J. split.
    + intros o by_ x before Hin. exact (proj1 (proj2 (e_d _ _ _ _ J o by_ x before Hin)) E).
    + intros x before Hin. exact (proj2 (e_nx _ _ _ _ J x before Hin) E).
Qed.
Print Assumptions C62_sequenced_orders.

Example C62_fast : exists s, run code_step s_init fast = Running s [SERaise 1 0; SEWait 0 0; SEDone 0 None 1 [0; 0]; SENext 2 [0]] /\ s_acc s = 1.
Proof. witness. vmrefl. Qed.
(** A wait is queued; two calls of raise() interleave; the one that takes the waiter returns the number of both. *)
Definition two : list slabel := [SLWait 0 0 vbot 0; SLRaise vbot; SLRaise vbot; SLLock 0; SLWake 0 2; SLLock 1].
Example C62_two : exists s, run code_step s_init two = Running s [SEWait 0 0; SERaise 1 0; SERaise 2 1; SEDone 0 (Some 1) 2 [0; 0; 1; 0]] /\ s_acc s = 2.
Proof. witness. vmrefl. Qed.

(** ** C63: sequenced_event works under the C++ memory model *)

(** The assertion of line 24 holds if the caller knows that the number was reached, and raise() uses only operations that are queued. *)
Theorem C63_sequenced_safe ls f tr : run code_step s_init ls <> Failed f tr.
Proof. exact (se_safe true true true ls f tr). Qed.
Print Assumptions C63_sequenced_safe.

(** The n-th call of raise() makes the number n. *)
Theorem C63_sequenced_number ls s t1 j n t2 : run code_step s_init ls = Running s (t1 ++ SERaise j n :: t2) -> j = S (s_raises t1).
Proof. intros H. exact (e_num _ _ _ _ (se_inv true true true ls s _ H) t1 j n t2 eq_refl). Qed.
Print Assumptions C63_sequenced_number.

(** A wait returns a number that was reached.  It is not older than the number the wait was called with, also if the loads return old values; it is newer if
    the wait completes in start(), and it counts the raise() that wakes it. *)
Theorem C63_sequenced_value ls s tr o by_ x before t : run code_step s_init ls = Running s tr -> In (SEDone o by_ x before) tr -> In (SEWait o t) tr ->
  x <= s_raises tr /\ t <= x /\ (by_ = None -> t < x) /\ forall j, by_ = Some j -> j <= x.
Proof.
  intros H Hin Hw. pose proof (se_inv true true true ls s tr H) as J. destruct (e_d _ _ _ _ J o by_ x before Hin) as (A & _ & C). specialize (C t Hw).
  rewrite (e_ph _ _ _ _ J). destruct by_ as [j|]; [destruct C|]; repeat split; try lia; try discriminate. intros j' E. injection E as <-. assumption.
Qed.
Print Assumptions C63_sequenced_value.

(** No wake-up is lost: when no call is running, a wait on a number that was passed has completed. *)
Theorem C63_sequenced_live ls s tr o t : run code_step s_init ls = Running s tr -> s_quiet s -> In (SEWait o t) tr -> t < s_raises tr -> s_completed o tr = 1.
Proof. exact (se_live true true true ls s tr o t). Qed.
Print Assumptions C63_sequenced_live.
Theorem C63_sequenced_once ls s tr o : run code_step s_init ls = Running s tr -> s_completed o tr <= 1.
Proof. intros H. rewrite (e_tn _ _ _ _ (se_inv true true true ls s tr H) o). destruct (s_op s o); lia. Qed.
Print Assumptions C63_sequenced_once.

(** A wait that reads the old number after raise() incremented it, before the critical section of raise(), is woken by it. *)
Definition late : list slabel := [SLRaise vbot; SLWait 0 0 vbot 0; SLLock 0; SLWake 0 1].
Example C63_late : exists s, run code_step s_init late = Running s [SERaise 1 0; SEWait 0 0; SEDone 0 (Some 1) 1 [0; 0]] /\ s_q s = [].
Proof. witness. vmrefl. Qed.
Example C63_late_quiet : exists s, run code_step s_init late = Running s [SERaise 1 0; SEWait 0 0; SEDone 0 (Some 1) 1 [0; 0]] /\ s_quiet s.
Proof.
  witness. split; simpl.
  - intros r [<-|[]]. eauto.
  - intros [|o] t; simpl; discriminate.
Qed.
