(** C60 and C61: barrier under the C++ memory model. *)
From Coq Require Import List Arith Bool Lia ZArith.
From Verif Require Import Lts M_Weak M_BarrierW S_BarrierW P_BarrierW.
Import ListNotations.

(** The memory orders of the code: lines 46 and 28 are relaxed *)
Definition code_step := b_step false false.

(** ** C60: what happens before an arrival happens before the end of the waits for its phase *)

(** The waits that are notified by raise() of their phase, or of a later one, do see the arrivals. *)
Theorem C60_barrier_raise expected ls s tr : run code_step (b_init expected) ls = Running s tr -> sees_arrivals_raise tr.
Proof. exact (b_raise_sees expected false false ls s tr). Qed.
Print Assumptions C60_barrier_raise.

(** Two threads arrive.  The thread that arrived first starts its wait after the other one stored the new sequence number, but before that one calls raise(). *)
Definition inline : list blabel := [BLArrive 1 0 vbot 0; BLArrive 1 0 vbot 0; BLWait 0 0 (V 0 [TData 0]) 1].
Definition inline_trace : list bevent := [BEArrive 0 0; BEArrive 0 1; BEPhase 0; BEWait 0 0; BENotify 0 None [0]].
Lemma inline_run st_rel ld_acq : st_rel && ld_acq = false -> exists s, run (b_step st_rel ld_acq) (b_init 2) inline = Running s inline_trace /\ b_acc s = 2.
Proof. intros H. destruct st_rel, ld_acq; try discriminate H; witness; vmrefl. Qed.
Lemma inline_blind : ~ sees_arrivals_inline inline_trace.
Proof.
  intros H. destruct (H 0 [0] 0) with (s' := 0) (n := 1) as [E|[]]; [simpl; auto 6|simpl; auto 6|lia|simpl; auto|discriminate].
Qed.

(** A wait that completes in start() does not: the relaxed load of line 28 reads the relaxed store of line 46 without synchronizing with it, and the two are
    made under different mutexes. *)
Theorem C60_barrier_inline_refuted : exists expected ls s tr, run code_step (b_init expected) ls = Running s tr /\ ~ sees_arrivals_inline tr.
Proof. destruct (inline_run false false eq_refl) as (s & Hs & _). exists 2%Z, inline, s, inline_trace. split; [exact Hs|exact inline_blind]. Qed.
Print Assumptions C60_barrier_inline_refuted.

(** With a release store and an acquire load all of them see the arrivals; both are needed. *)
Theorem C60_barrier_orders st_rel ld_acq :
  (forall expected ls s tr, run (b_step st_rel ld_acq) (b_init expected) ls = Running s tr -> sees_arrivals tr) <-> st_rel && ld_acq = true.
Proof.
  split.
  - intros H. destruct (st_rel && ld_acq) eqn:E; [reflexivity|]. exfalso. destruct (inline_run _ _ E) as (s & Hs & _). apply inline_blind.
    intros o before t A B. apply (H 2%Z inline s inline_trace Hs o None before t A B). discriminate.
  - intros E expected ls s tr Hr. exact (b_sees expected st_rel ld_acq ls s tr E Hr).
Qed.
Print Assumptions C60_barrier_orders.

(** The wait is queued before the last arrival; raise() notifies it.  A second wait on the same token completes in start(). *)
Definition both : list blabel := [BLArrive 1 0 vbot 0; BLWait 0 0 (V 0 [TData 0]) 0; BLArrive 1 0 vbot 0; BLRaise 0; BLWake 0; BLWait 1 0 (V 0 [TData 0]) 1].
Example C60_both : exists s, run code_step (b_init 2) both =
  Running s [BEArrive 0 0; BEWait 0 0; BEArrive 0 1; BEPhase 0; BENotify 0 (Some 0) [1; 0; 0]; BEWait 1 0; BENotify 1 None [0; 1; 0; 0]] /\ b_acc s = 2.
Proof. witness. vmrefl. Qed.

(** ** C61: the barrier works under the C++ memory model *)

(** The position of the store in the modification order is always determined, and no operation is used that was not queued.  (When the assertions hold is the
    subject of C15.) *)
Theorem C61_barrier_failures expected ls f tr : run code_step (b_init expected) ls = Failed f tr -> f = AssertFailed.
Proof. exact (b_fail expected false false ls f tr). Qed.
Print Assumptions C61_barrier_failures.

(** A call returns the number of the phases that were completed before. *)
Theorem C61_barrier_token expected ls s t1 t n t2 : run code_step (b_init expected) ls = Running s (t1 ++ BEArrive t n :: t2) -> t = b_phases t1.
Proof. intros H. exact (j_tok _ _ _ _ (b_inv expected false false ls s _ H) t1 t n t2 eq_refl). Qed.
Print Assumptions C61_barrier_token.

(** A wait that is notified by start(), or by the raise() of its phase or a later one, is notified after its phase is complete (old messages do not hurt). *)
Theorem C61_barrier_not_early expected ls s tr o by_ before t : run code_step (b_init expected) ls = Running s tr -> In (BENotify o by_ before) tr -> In (BEWait o t) tr ->
  (forall p, by_ = Some p -> t <= p) -> t < b_phases tr.
Proof. exact (b_notearly expected false false ls s tr o by_ before t). Qed.
Print Assumptions C61_barrier_not_early.

(** No wake-up is lost although the condition of the wait reads seq_ under another mutex than the one under which it is written. *)
Theorem C61_barrier_live expected ls s tr o t : run code_step (b_init expected) ls = Running s tr -> b_quiet s -> In (BEWait o t) tr -> t < b_phases tr -> b_notified o tr = 1.
Proof. exact (b_live expected false false ls s tr o t). Qed.
Print Assumptions C61_barrier_live.
Theorem C61_barrier_once expected ls s tr o : run code_step (b_init expected) ls = Running s tr -> b_notified o tr <= 1.
Proof. exact (b_once expected false false ls s tr o). Qed.
Print Assumptions C61_barrier_once.

(** A wait reads the old sequence number after the phase is complete, because raise() has not been called yet; raise() notifies it. *)
Definition late : list blabel := [BLArrive 1 0 vbot 0; BLArrive 1 0 vbot 0; BLWait 0 0 (V 0 [TData 0]) 0; BLRaise 0; BLWake 0].
Example C61_late : exists s, run code_step (b_init 2) late =
  Running s [BEArrive 0 0; BEArrive 0 1; BEPhase 0; BEWait 0 0; BENotify 0 (Some 0) [1; 0; 0]] /\ b_rs s = [BLoop 0 [] (V 1 [TData 1; TData 0; TData 0])].
Proof. witness. vmrefl. Qed.
