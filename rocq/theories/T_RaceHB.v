(** C67: race_and_cancel under the C++ memory model. *)
From Coq Require Import List Arith Bool Lia.
From Verif Require Import Lts M_Race S_Race M_HB M_RaceHB S_RaceHB P_RaceHB.
Import ListNotations.

(** The memory order of the code (line 364) *)
Definition code_step (n : nat) := ch_step n true true.
(** The client may cause a data race although it obeys the rules of C42 *)
Definition races (acq rel : bool) : Prop :=
  exists n ls tr, 0 < n /\ run (ch_step n acq rel) ch_init ls = Failed DataRace tr /\ r_rule (map fst tr).

(** No data race, also with a destruction as soon as the receiver was notified and the first completion call returned. *)
Theorem C67_race_race_free n : 0 < n -> forall ls tr, run (code_step n) ch_init ls = Failed DataRace tr -> ~ r_rule (map fst tr).
Proof. exact (race_norace n). Qed.
Print Assumptions C67_race_race_free.

(** Whatever happens before the completion of an operation, or before the call of start(), happens before the notification of the receiver; no rules for the client. *)
Theorem C67_race_visible n : 0 < n -> forall ls h tr, run (code_step n) ch_init ls = Running h tr -> sees_operations tr.
Proof. exact (race_visible n). Qed.
Print Assumptions C67_race_visible.

Definition three_events : list revent := [REStart; REChild 0; REChild 1; REChild 2; RERet; REComp 0; RECancel 1; RECancel 2; RECRet 0; REComp 1; RECRet 1; REComp 2; REDone; RECRet 2; REDestroy].
Definition three : list (rlabel * hbs) :=
  map (fun l => (l, [])) [RLStart; RLStep; RLStep; RLStep; RLStep; RLComp 0; RLAct 0; RLAct 0; RLAct 0; RLAct 0; RLComp 1; RLAct 1; RLComp 2; RLAct 2; RLDestroy].
Lemma three_rule : r_rule three_events.
Proof.
  intros t1 t2 H. do 14 (destruct t1 as [|? t1]; [discriminate|injection H as <- H]). destruct t1 as [|? t1]; [|destruct t1; discriminate].
  split; [simpl; tauto|]. intros w [l Hw]. unfold r_comps in Hw. simpl in Hw. injection Hw as <- _. simpl. tauto.
Qed.

(** Both the acquire and the release are needed. *)
Theorem C67_race_orders acq rel : races acq rel <-> acq && rel = false.
Proof.
  split.
  - intros (n & ls & tr & Hn & Hr & Hc). destruct acq, rel; try reflexivity. exfalso. exact (race_norace n Hn ls tr Hr Hc).
  - intros H. exists 3, three. destruct acq, rel; try discriminate; eexists; (split; [lia|]); (split; [vm_compute; reflexivity|]); exact three_rule.
Qed.
Print Assumptions C67_race_orders.

(** Three operations that complete on three threads; the receiver sees the writes 11, 15 and 17 of their operations. *)
Example C67_three :
  exists h tr, run (code_step 3) ch_init three = Running h tr /\ map fst tr = three_events /\
    existsb (fun ev => match ev with (REDone, v) => forallb (fun i => memb i v) [11; 15; 17] | _ => false end) tr = true /\
    map (fun i => option_map fst (nth_error (mm_log (ms_mem h)) i)) [11; 15; 17] = [Some (MA (l_op 0) true); Some (MA (l_op 1) true); Some (MA (l_op 2) true)].
Proof. witness. repeat split; vmrefl. Qed.
