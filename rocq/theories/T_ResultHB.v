(** C56 and C57: result<T> under the C++ memory model. *)
From Coq Require Import List Arith Bool Lia.
From Verif Require Import Lts M_Result S_Result M_HB M_ResultHB S_ResultHB P_Result P_ResultHB.
Import ListNotations.

(** ** C56: data races *)
(** The memory orders of the code (lines 123-124, 297, 300): the exchange of final_suspend releases, the one of start() is relaxed and followed by an acquire fence. *)
Definition code_step (eager : bool) := rh_step eager false true false true.
(** The client may cause a data race although it destroys the operation only after the notification of the receiver *)
Definition races (eager f_acq f_rel s_rel s_fence : bool) : Prop :=
  exists ls tr, run (rh_step eager f_acq f_rel s_rel s_fence) rh_init ls = Failed DataRace tr /\ r_rule (map fst tr).

(** If the operation is destroyed by a thread that also knows that start() returned, then there is no data race. *)
Theorem C56_result_lazy ls tr : run (code_step false) rh_init ls = Failed DataRace tr -> ~ r_rule (map fst tr).
Proof. exact (result_norace false false false (or_introl eq_refl) ls tr). Qed.
Print Assumptions C56_result_lazy.

Lemma rule_none tr : ~ In REDestroy tr -> r_rule tr.
Proof. intros H t1 t2 ->. exfalso. apply H, in_elt. Qed.
Lemma rule_last tr x : ~ In REDestroy tr -> In (REDone x) tr -> r_rule (tr ++ [REDestroy]).
Proof.
  intros H Hx t1 t2 Ht. apply snoc_cons_inv in Ht. destruct Ht as [(-> & _)|(t2' & ->)]; [eauto|]. exfalso. apply H, in_elt.
Qed.

(** The release and the fence are needed for that: otherwise the value races. *)
Lemma races_value eager f_acq f_rel s_rel s_fence : f_rel && s_fence = false -> races eager f_acq f_rel s_rel s_fence.
Proof.
  intros H. exists (map (fun l => (l, [])) [RLStart; RLSuspend; RLResume; RLReturn 7; RLFinal; RLExch; RLNotifyInline]).
  destruct f_rel, s_fence; try discriminate; destruct eager, f_acq, s_rel; eexists; (split; [vm_compute; reflexivity|]); apply rule_none; simpl; intuition discriminate.
Qed.
Theorem C56_result_lazy_orders f_acq f_rel s_rel s_fence : races false f_acq f_rel s_rel s_fence <-> f_rel && s_fence = false.
Proof.
  split; [|apply races_value]. intros (ls & tr & Hr & Hc). destruct f_rel, s_fence; try reflexivity. exfalso.
  exact (result_norace false f_acq s_rel (or_introl eq_refl) ls tr Hr Hc).
Qed.
Print Assumptions C56_result_lazy_orders.

(** If the receiver destroys the operation, then the relaxed exchange of start() on cfp_ races with the destruction of the coroutine frame: the exchange of
    final_suspend reads the value that start() wrote but does not synchronize with it. *)
Theorem C56_result_eager_refuted : exists ls tr, run (code_step true) rh_init ls = Failed DataRace tr /\ r_rule (map fst tr).
Proof.
  exists (map (fun l => (l, [])) [RLStart; RLSuspend; RLExch; RLResume; RLReturn 7; RLFinal; RLNotify; RLDestroy]). eexists. split; [vm_compute; reflexivity|].
  apply (rule_last [REStart; RESuspend; REResume; REReturn 7; REDone 7] 7); simpl; intuition discriminate.
Qed.
Print Assumptions C56_result_eager_refuted.

(** It suffices, and is necessary, that both exchanges have acquire-release semantics. *)
Theorem C56_result_eager_orders f_acq f_rel s_rel s_fence : races true f_acq f_rel s_rel s_fence <-> f_acq && f_rel && s_rel && s_fence = false.
Proof.
  split.
  - intros (ls & tr & Hr & Hc). destruct f_acq, f_rel, s_rel, s_fence; try reflexivity. exfalso. exact (result_norace true true true (or_intror eq_refl) ls tr Hr Hc).
  - intros H. destruct (f_rel && s_fence) eqn:H1; [|now apply races_value]. apply andb_true_iff in H1. destruct H1 as [-> ->].
    exists (map (fun l => (l, [])) [RLStart; RLSuspend; RLExch; RLResume; RLReturn 7; RLFinal; RLNotify; RLDestroy]).
    destruct f_acq, s_rel; try discriminate; eexists; (split; [vm_compute; reflexivity|]);
      apply (rule_last [REStart; RESuspend; REResume; REReturn 7; REDone 7] 7); simpl; intuition discriminate.
Qed.
Print Assumptions C56_result_eager_orders.

(** A coroutine that is finished by another thread, either before or after the exchange of start(). *)
Example C56_overtaken :
  exists s tr, run (code_step true) rh_init (map (fun l => (l, [])) [RLStart; RLSuspend; RLResume; RLReturn 7; RLFinal; RLExch; RLNotifyInline; RLDestroy]) = Running s tr /\
               map fst tr = [REStart; RESuspend; REResume; REReturn 7; REDone 7; REDestroy].
Proof. witness. vmrefl. Qed.
Example C56_later :
  exists s tr, run (code_step false) rh_init (map (fun l => (l, [])) [RLStart; RLSuspend; RLExch; RLResume; RLReturn 7; RLFinal; RLNotify; RLDestroy]) = Running s tr /\
               map fst tr = [REStart; RESuspend; REResume; REReturn 7; REDone 7; REDestroy].
Proof. witness. vmrefl. Qed.

(** ** C57: visibility *)
(** Whatever happens before an action of the coroutine (or before the call of start()) happens before the notification of the receiver, on
    whatever thread that is. *)
Theorem C57_result_visible eager ls h tr : run (code_step eager) rh_init ls = Running h tr -> r_rule (map fst tr) -> sees_coroutine tr.
Proof. exact (result_visible eager false false ls h tr). Qed.
Print Assumptions C57_result_visible.

(** The receiver is notified by start(), and sees the accesses 11 to 13 of the thread that finished the coroutine: write of the frame, read of cont_, write of the value. *)
Example C57_example :
  exists h tr, run (code_step true) rh_init (map (fun l => (l, [])) [RLStart; RLSuspend; RLResume; RLReturn 7; RLFinal; RLExch; RLNotifyInline]) = Running h tr /\
    existsb (fun ev => match ev with (REDone x, v) => (x =? 7) && forallb (fun i => memb i v) [11; 12; 13] | _ => false end) tr = true /\
    map (fun i => option_map fst (nth_error (mm_log (ms_mem h)) i)) [11; 12; 13] = [Some (MA l_frame true); Some (MA l_cont false); Some (MA l_obj true)].
Proof. witness. split; vmrefl. Qed.
