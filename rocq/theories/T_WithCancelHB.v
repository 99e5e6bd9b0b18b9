(** C68: with_cancel_cb under the C++ memory model. *)
From Coq Require Import List Arith Bool Lia.
From Verif Require Import Lts M_WithCancel S_WithCancel M_HB M_WithCancelHB S_WithCancelHB P_WithCancelHB.
Import ListNotations.

(** The memory orders of the code (lines 510, 526) *)
Definition code_step (tok : bool) := wc_step tok true true true true.

(** No data race, no failed assertion, no access after the destruction; no rules for the client. *)
Theorem C68_with_cancel_cb_race_free tok : forall ls f tr, run (code_step tok) wc_init ls <> Failed f tr.
Proof. exact (with_cancel_norace tok). Qed.
Print Assumptions C68_with_cancel_cb_race_free.

(** Whatever happens before start(), before start or completion of the wrapped operation, or before the return of the callback happens before the notification of the receiver. *)
Theorem C68_with_cancel_cb_visible tok : forall ls h tr, run (code_step tok) wc_init ls = Running h tr -> sees_all tr.
Proof. exact (with_cancel_visible tok). Qed.
Print Assumptions C68_with_cancel_cb_visible.

(** Whatever happens before some call of cancel(), and before start(), happens before the call of the callback. *)
Theorem C68_with_cancel_cb_cancel tok : forall ls h t1 v t2, run (code_step tok) wc_init ls = Running h (t1 ++ (WECb, v) :: t2) -> sees_cancel t1 v.
Proof. intros ls h t1 v t2 Hr. exact (proj2 (CI_run tok ls h _ Hr) t1 v t2 eq_refl). Qed.
Print Assumptions C68_with_cancel_cb_cancel.

Definition labels (l : list wlabel) : list (wlabel * hbs) := map (fun x => (x, [])) l.
(** cancel() while the wrapped operation is running.  The callback returns first; the wrapped operation completes first *)
Definition cb_first : list wlabel :=
  [WLStart; WLStep 0; WLStep 0; WLCancel; WLStep 1; WLCbRet 1; WLStep 1; WLInner 7; WLStep 2; WLStep 2; WLStep 2].
Definition inner_first : list wlabel :=
  [WLStart; WLStep 0; WLStep 0; WLCancel; WLStep 1; WLInner 7; WLStep 2; WLStep 2; WLCbRet 1; WLStep 1; WLStep 1].

(** The acquires and the releases of both fetch_sub() are needed. *)
Theorem C68_with_cancel_cb_orders v_acq v_rel c_acq c_rel :
  (exists tok ls tr, run (wc_step tok v_acq v_rel c_acq c_rel) wc_init ls = Failed DataRace tr) <-> v_acq && v_rel && c_acq && c_rel = false.
Proof.
  split.
  - intros (tok & ls & tr & Hr). destruct v_acq, v_rel, c_acq, c_rel; try reflexivity. exfalso. exact (with_cancel_norace tok ls _ tr Hr).
  - intros H. exists true. destruct v_acq, v_rel, c_acq, c_rel; try discriminate;
      first [exists (labels cb_first); eexists; vm_compute; reflexivity|exists (labels inner_first); eexists; vm_compute; reflexivity].
Qed.
Print Assumptions C68_with_cancel_cb_orders.

(** The receiver sees a write of the callback and one of the wrapped operation, whichever comes last. *)
Definition done_sees (i : nat) (tr : list (wevent * hbs)) : bool := existsb (fun ev => match ev with (WEDone 7, v) => memb i v | _ => false end) tr.
Example C68_cb_first :
  exists h tr, run (code_step true) wc_init (labels cb_first) = Running h tr /\
    map fst tr = [WEStart; WEInnerStart; WECancel; WECb; WECbRet; WEInner 7; WEDone 7] /\
    map (fun i => option_map fst (nth_error (mm_log (ms_mem h)) i)) [12; 15] = [Some (MA l_cb true); Some (MA l_op true)] /\
    done_sees 12 tr = true /\ done_sees 15 tr = true.
Proof. witness. repeat split; vmrefl. Qed.
Example C68_inner_first :
  exists h tr, run (code_step true) wc_init (labels inner_first) = Running h tr /\
    map fst tr = [WEStart; WEInnerStart; WECancel; WECb; WEInner 7; WECbRet; WEDone 7] /\
    map (fun i => option_map fst (nth_error (mm_log (ms_mem h)) i)) [13; 17] = [Some (MA l_op true); Some (MA l_cb true)] /\
    done_sees 13 tr = true /\ done_sees 17 tr = true.
Proof. witness. repeat split; vmrefl. Qed.
