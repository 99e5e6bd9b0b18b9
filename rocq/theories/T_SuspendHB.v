(** C72: suspend_indefinitely under the C++ memory model. *)
From Coq Require Import List Arith Bool Lia.
From Verif Require Import Lts M_Suspend S_Suspend M_HB M_SuspendHB S_SuspendHB P_SuspendHB.
Import ListNotations.

(** The memory orders of the code (lines 407, 428) *)
Definition code_step (toks : list (option nat)) := uh_step toks true true true true.

(** No data race, no failed assertion, no access after the destruction, for all tokens; no rules for the client. *)
Theorem C72_suspend_race_free toks : forall ls f tr, run (code_step toks) (uh_init toks) ls <> Failed f tr.
Proof. exact (suspend_norace toks). Qed.
Print Assumptions C72_suspend_race_free.

(** Whatever happens before the call of start(), and before the calls of cancel() that precede it, happens before the notification of the receiver. *)
Theorem C72_suspend_visible toks : forall ls h t1 v t2, run (code_step toks) (uh_init toks) ls = Running h (t1 ++ (EDone, v) :: t2) ->
  sees_start t1 v /\ sees_early toks t1 v.
Proof. intros ls h t1 v t2 Hr. destruct (suspend_seen toks ls h _ Hr t1 v t2 eq_refl) as (H1 & _ & H3). auto. Qed.
Print Assumptions C72_suspend_visible.

(** Unless there are no tokens at all, some call of cancel() of one of the events, with whatever happens before it, happens before the notification. *)
Theorem C72_suspend_cancel toks : toks <> [] -> forall ls h t1 v t2, run (code_step toks) (uh_init toks) ls = Running h (t1 ++ (EDone, v) :: t2) -> sees_cancel toks t1 v.
Proof. intros Hne ls h t1 v t2 Hr. destruct (suspend_seen toks ls h _ Hr t1 v t2 eq_refl) as (_ & H & _). auto. Qed.
Print Assumptions C72_suspend_cancel.

Definition labels (l : list ulabel) : list (ulabel * hbs) := map (fun x => (x, [])) l.
Definition M := LStep None.
Definition S' (k : nat) := LStep (Some k).
(** One token: the decrement of start() precedes that of cancel() *)
Definition one : list ulabel := [LStart; M; M; M; LCancel 0; S' 0; S' 0; S' 0; S' 0; M; S' 0].
(** Two tokens: cancel() of the first event resets the observer of the second one *)
Definition two : list ulabel := [LStart; M; M; M; M; LCancel 0; S' 0; S' 0; S' 0; S' 0; S' 0; M; S' 0].
(** Two tokens: the callback of the second one is running while the first cancel() tries to reset it *)
Definition both : list ulabel := [LStart; M; M; M; M; M; LCancel 0; LCancel 1; S' 0; S' 0; S' 1; S' 0; S' 0; S' 0; S' 0; S' 1; S' 1].

(** cancel() of the second event before start(), which notifies the receiver itself *)
Definition early : list ulabel := LCancel 1 :: LStart :: repeat M 10.

(** The acquires and the releases of the fetch_or() and of the fetch_sub() are needed. *)
Theorem C72_suspend_orders o_acq o_rel s_acq s_rel :
  (exists toks ls tr, run (uh_step toks o_acq o_rel s_acq s_rel) (uh_init toks) ls = Failed DataRace tr) <-> o_acq && o_rel && s_acq && s_rel = false.
Proof.
  split.
  - intros (toks & ls & tr & Hr). destruct o_acq, o_rel, s_acq, s_rel; try reflexivity. exfalso. exact (suspend_norace toks ls _ tr Hr).
  - intros H. destruct o_acq, o_rel, s_acq, s_rel; try discriminate;
      first [exists [Some 0], (labels one); eexists; vm_compute; reflexivity|exists [Some 0; Some 1], (labels two); eexists; vm_compute; reflexivity].
Qed.
Print Assumptions C72_suspend_orders.

(** What the receiver sees *)
Definition done_sees (i : nat) (tr : list (uevent * hbs)) : bool := existsb (fun ev => match ev with (EDone, v) => memb i v | _ => false end) tr.
Definition access (h : mst (S := ust)) (i : nat) : option maccess := option_map fst (nth_error (mm_log (ms_mem h)) i).
(** The write of the first cancel() to _was_requested, the last access of start() and the construction *)
Example C72_two :
  exists h tr, run (code_step [Some 0; Some 1]) (uh_init [Some 0; Some 1]) (labels two) = Running h tr /\
    map fst tr = [EStart; ECancel 0; EDone] /\ map (access h) [17; 27; 7] = [Some (MA (l_req 0) true); Some (MA l_st false); Some (MA (l_fn 1) true)] /\
    forallb (fun i => done_sees i tr) [17; 27; 7] = true.
Proof. witness. repeat split; vmrefl. Qed.
(** Both calls of cancel() *)
Example C72_both :
  exists h tr, run (code_step [Some 0; Some 1]) (uh_init [Some 0; Some 1]) (labels both) = Running h tr /\
    map fst tr = [EStart; ECancel 0; ECancel 1; EDone] /\ map (access h) [18; 20] = [Some (MA (l_req 0) true); Some (MA (l_req 1) true)] /\
    forallb (fun i => done_sees i tr) [18; 20] = true.
Proof. witness. repeat split; vmrefl. Qed.
(** A call of cancel() before start() *)
Example C72_early :
  exists h tr, run (code_step [Some 0; Some 1]) (uh_init [Some 0; Some 1]) (labels early) = Running h tr /\
    map fst tr = [ECancel 1; EStart; EDone] /\ access h 0 = Some (MA (l_req 1) true) /\ done_sees 0 tr = true.
Proof. witness. repeat split; vmrefl. Qed.
