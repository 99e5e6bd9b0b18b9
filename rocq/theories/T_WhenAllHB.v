(** C66: when_all under the C++ memory model. *)
From Coq Require Import List Arith Bool Lia.
From Verif Require Import Lts M_WhenAll S_WhenAll M_HB M_WhenAllHB S_WhenAllHB P_WhenAllHB.
Import ListNotations.

(** The memory orders of the code (lines 674 and 713) *)
Definition code_step (n : nat) (dbg : bool) := wh_step n true true true true dbg.
(** The client may cause a data race although it obeys the rules of C40 *)
Definition races (r_acq r_rel s_acq s_rel : bool) : Prop :=
  exists n dbg ls tr, 0 < n /\ run (wh_step n r_acq r_rel s_acq s_rel dbg) (wh_init n) ls = Failed DataRace tr /\ a_rule n (map fst tr).

(** No data race, even if the receiver destroys the operation as soon as it is notified. *)
Theorem C66_when_all_race_free n dbg : 0 < n -> forall ls tr, run (code_step n dbg) (wh_init n) ls = Failed DataRace tr -> ~ a_rule n (map fst tr).
Proof. exact (when_all_norace n dbg true). Qed.
Print Assumptions C66_when_all_race_free.

(** Whatever happens before the completion of a sender, or before the call or the return of start(), happens before the notification of the receiver. *)
Theorem C66_when_all_visible n dbg : 0 < n -> forall ls h tr, run (code_step n dbg) (wh_init n) ls = Running h tr -> a_rule n (map fst tr) -> sees_senders tr.
Proof. exact (when_all_visible n dbg true). Qed.
Print Assumptions C66_when_all_visible.

Definition two_events : list aevent := [AEStart; AEChild 0; AEChild 1; AERet; AEComp 0; AEComp 1; AEDone; AEDestroy].
Lemma two_rule : a_rule 2 two_events.
Proof.
  intros t1 e t2 H. do 8 (destruct t1 as [|? t1]; [injection H as <- _; simpl; auto 10|injection H as <- H]). destruct t1; discriminate.
Qed.

(** The acquire and the release of the senders' fetch_sub() and the release of the one of start() are needed; the acquire of the one of start() is not. *)
Theorem C66_when_all_orders r_acq r_rel s_acq s_rel : races r_acq r_rel s_acq s_rel <-> r_acq && r_rel && s_rel = false.
Proof.
  split.
  - intros (n & dbg & ls & tr & Hn & Hr & Hc). destruct r_acq, r_rel, s_rel; try reflexivity. exfalso. exact (when_all_norace n dbg s_acq Hn ls tr Hr Hc).
  - intros H. exists 2, true, (map (fun l => (l, [])) [ALStart; ALStep; ALStep; ALStep; ALComp 0; ALComp 1; ALNotify; ALDestroy]).
    destruct r_acq, r_rel, s_rel; try discriminate; destruct s_acq; eexists; (split; [lia|]); (split; [vm_compute; reflexivity|]); exact two_rule.
Qed.
Print Assumptions C66_when_all_orders.

(** Two senders that complete on two threads; the receiver sees the writes 7 and 9 of their operations and the access 6 of start() to ctr_, and destroys the operation. *)
Example C66_two :
  exists h tr, run (code_step 2 true) (wh_init 2) (map (fun l => (l, [])) [ALStart; ALStep; ALStep; ALStep; ALComp 0; ALComp 1; ALNotify; ALDestroy]) = Running h tr /\
    map fst tr = two_events /\ existsb (fun ev => match ev with (AEDone, v) => forallb (fun i => memb i v) [6; 7; 9] | _ => false end) tr = true /\
    map (fun i => option_map fst (nth_error (mm_log (ms_mem h)) i)) [6; 7; 9] = [Some (MA l_ctr false); Some (MA (l_op 0) true); Some (MA (l_op 1) true)].
Proof. witness. repeat split; vmrefl. Qed.
