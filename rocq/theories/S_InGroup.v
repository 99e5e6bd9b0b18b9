(** Specification vocabulary for wait_in_group under the C++ memory model. *)
From Coq Require Import List Arith Bool.
From Verif Require Import Lts M_Weak M_WaitGroupW S_WaitGroupW M_WaitGroupWD S_WaitGroupWD M_InGroup.
Import ListNotations.

(** What the clients of the group see *)
Definition zev (tr : list ievent) : list zevent := flat_map (fun e => match e with IE x => [x] | _ => [] end) tr.
(** What the client of the wrapped operation i sees *)
Definition in_events (i : nat) (tr : list ievent) : list ievent :=
  filter (fun e => match e with IEStart j _ | IEComp j _ | IEOut j _ | IEDel j => j =? i | IE _ => false end) tr.
(** When a wait on the group is notified, every wrapped operation whose start happens before the start of the wait has completed, and what its original operation did happens before the
    notification. *)
Definition sees_ops (tr : list ievent) : Prop :=
  forall t1 o before t2, tr = t1 ++ IE (ZE (GENotify o before)) :: t2 ->
  forall known i u, In (IE (ZE (GEWait o known))) t1 -> In (IEStart i u) t1 -> In u known -> exists n, In (IEComp i n) t1 /\ In n before.
(** Start, completion of the original operation, notification of the receiver, which sees what the original operation did, destruction; in this order *)
Definition life_of (i : nat) (tr : list ievent) : Prop :=
  in_events i tr = [] \/
  exists u, in_events i tr = [IEStart i u] \/
  exists n, in_events i tr = [IEStart i u; IEComp i n] \/
  exists b, In n b /\ (in_events i tr = [IEStart i u; IEComp i n; IEOut i b] \/ in_events i tr = [IEStart i u; IEComp i n; IEOut i b; IEDel i]).
(** Nothing is left to do for the threads that called done() or set_value(): every call of done() and every loop (lines 69-73) has ended, and no receiver can be notified *)
Definition i_quiet (d_acq d_rel a_acq a_rel early : bool) (s : ist) : Prop :=
  g_quiet (z_g (i_z s)) /\ forall i s' es, i_step d_acq d_rel a_acq a_rel early s (ILOut i) <> Next s' es.
(** done() for the unit u has returned: it has decremented the counter, and notified the waits that it took from the queue *)
Definition done_returned (s : ist) (u : nat) : Prop :=
  exists k v, nth_error (g_dn (z_g (i_z s))) k = Some (u, GEnd, v) /\ forall j, i_lp s k = Some j -> exists w, nth_error (g_wk (z_g (i_z s))) j = Some ([], w).
(** done() of the wrapped operation returns before its receiver is notified *)
Definition out_after (s : ist) (tr : list ievent) : Prop := forall i b, In (IEOut i b) tr -> exists u, In (IEStart i u) tr /\ done_returned s u.
(** A unit of the group has ended: by the completion of a wrapped operation, or by a call of done() *)
Definition ended (tr : list ievent) (u : nat) : Prop := (exists i n, In (IEStart i u) tr /\ In (IEComp i n) tr) \/ exists n, In (IE (ZE (GEDone u n))) tr.
Definition all_ended (n0 : nat) (tr : list ievent) : Prop := forall u, is_unit n0 (gev (zev tr)) u -> ended tr u.
